(** * PropCalc: C28, C29 (any arithmetic), C30, C31 - integrals and
    derivatives.

    [set_num], [quotient], [width], [sample], [visits] and [leads] are in
    CalcSpec.v. *)
From Coq Require Import List NArith ZArith Bool Arith Lia String SpecFloat Reals.
From Verif Require Import Base BaseFacts F64 Num Types Maths Helpers Parser Eval SpecEval EvalProofs EvalTotal
  CalcSpec CalcProofs PropEval FloatFacts Toy.
Import ListNotations.
Local Open Scope string_scope.
Local Open Scope list_scope.

Section Props.
Context {N : Num} {En : Env}.
Notation V := (Value N).

(** ** C28: bounds *)
Theorem c28_equal_bounds (e la lb : AST N) x a b c :
  outcome la c (Ok [Scalar a]) -> outcome lb c (Ok [Scalar b]) -> neqb a b = true ->
  outcome (AInt e x la lb) c (Ok [Scalar n0]).
Proof.
  intros [_ [f1 H1]] [_ [f2 H2]] Hab. unfold eval in *. split; [discriminate|].
  exists (S (Nat.max f1 f2)). intros [|f] Hf; [lia|]. unfold eval. cbn [eval_rec].
  rewrite H1, H2 by lia. cbn [bind]. rewrite !concatM_one. cbn [calculate_integral]. now rewrite Hab.
Qed.

Theorem c28_non_scalar_bound (e la lb : AST N) x u v c :
  outcome la c (Ok [u]) -> outcome lb c (Ok [v]) ->
  get_scalar u = None \/ get_scalar v = None ->
  outcome (AInt e x la lb) c (Err (MathError "Only scalar bounds are allowed!")).
Proof.
  intros [_ [f1 H1]] [_ [f2 H2]] Huv. unfold eval in *. split; [discriminate|].
  exists (S (Nat.max f1 f2)). intros [|f] Hf; [lia|]. unfold eval. cbn [eval_rec].
  rewrite H1, H2 by lia. cbn [bind]. rewrite !concatM_one.
  destruct u, v; try reflexivity. cbn in Huv. destruct Huv; discriminate.
Qed.

(** A variable of the context with the name of the integration variable has no
    influence on the integral (only, possibly, on the bounds). *)
Theorem c28_outer_variable_hidden (e la lb : AST N) x vs c ra rb r :
  distinct_names c ->
  outcome la c ra -> outcome la (add_var c (mkVar x vs)) ra ->
  outcome lb c rb -> outcome lb (add_var c (mkVar x vs)) rb ->
  outcome (AInt e x la lb) (add_var c (mkVar x vs)) r <-> outcome (AInt e x la lb) c r.
Proof. intros Hc. exact (integral_hides_outcome [] e la lb x c vs ra rb r Hc). Qed.

(** Any arithmetic: exchanging two comparable bounds changes nothing (not even
    the sign). *)
Lemma swapped_comparable (e la lb : AST N) x a b c r :
  outcome la c (Ok [Scalar a]) -> outcome lb c (Ok [Scalar b]) ->
  neqb a b = false -> neqb b a = false -> nltb a b = true -> nltb b a = false ->
  outcome (AInt e x la lb) c r <-> outcome (AInt e x lb la) c r.
Proof.
  intros [_ [f1 H1]] [_ [f2 H2]] E1 E2 L1 L2. unfold eval in *. apply (hides_transfer []).
  exists (S (Nat.max f1 f2)). intros [|f] Hf; [lia|]. cbn [eval_rec].
  rewrite H1, H2 by lia. cbn [bind]. rewrite !concatM_one. unfold calculate_integral.
  now rewrite E1, E2, L1, L2.
Qed.

(** ** C29, for any arithmetic: the sum of the samples, times the width *)
Theorem c29_sum_of_samples (e la lb : AST N) x a b c ps s0 ss :
  distinct_names c ->
  outcome la c (Ok [Scalar a]) -> outcome lb c (Ok [Scalar b]) ->
  neqb a b = false -> nltb b a = false ->
  visits (width a b) b a ps ->
  Forall2 (fun q s => outcome e (set_num c x (sample (width a b) q)) (Ok [Scalar s])) ps (s0 :: ss) ->
  outcome (AInt e x la lb) c (Ok [Scalar (nmul (fold_left nadd ss s0) (width a b))]).
Proof. exact (integral_outcome [] e la lb x a b c ps s0 ss). Qed.

(** ** C30, for any arithmetic *)
Theorem c30_terminates_if_upper_bound_reached (e la lb : AST N) x a b c ps :
  distinct_names c ->
  outcome la c (Ok [Scalar a]) -> outcome lb c (Ok [Scalar b]) ->
  neqb a b = false -> nltb b a = false ->
  visits (width a b) b a ps ->
  (forall q, In q ps -> exists r, outcome e (set_num c x (sample (width a b) q)) r) ->
  exists r, outcome (AInt e x la lb) c r.
Proof. exact (integral_terminates [] e la lb x a b c ps). Qed.

Theorem c30_vanishing_step_diverges (e la lb : AST N) x a b c q :
  distinct_names c ->
  outcome la c (Ok [Scalar a]) -> outcome lb c (Ok [Scalar b]) ->
  neqb a b = false -> nltb b a = false ->
  leads (width a b) b a q -> nltb q b = true -> nadd q (width a b) = q ->
  (forall q, leads (width a b) b a q -> nltb q b = true ->
     exists s, outcome e (set_num c x (sample (width a b) q)) (Ok [Scalar s])) ->
  diverges (AInt e x la lb) c.
Proof. apply integral_diverges. Qed.

(** ** C31: derivatives *)
(** Every value of [e] at [s + h] is combined with the value at [s] of the
    same index, whatever kind of value it is; the first quotient that is
    undefined decides the error. *)
Theorem c31_difference_quotient (e at_ : AST N) x s c fxs fxhs :
  outcome at_ c (Ok [Scalar s]) ->
  outcome e (set_num c x s) (Ok fxs) -> outcome e (set_num c x (nadd s step_h)) (Ok fxhs) ->
  List.length fxs = List.length fxhs ->
  outcome (ADer e x at_) c (mapM (fun p => map_err MathError (quotient (snd p) (fst p))) (combine fxs fxhs)).
Proof.
  intros Ha Hx Hxh Hl. apply (derivative_outcome [] e at_ x s c fxs fxhs); try assumption.
  intros p _. unfold quotient. pose proof (op_meaning_nofuel OSub (snd p) (fst p)) as H. cbn [op_meaning] in H. unfold single, rmap in H.
  destruct (sub (snd p) (fst p)) as [d| | |]; cbn [bind] in *; try discriminate; [|contradiction].
  pose proof (op_meaning_nofuel ODiv d (Scalar step_h)) as G. cbn [op_meaning] in G. unfold single, rmap in G.
  destruct (div d (Scalar step_h)); cbn in *; try discriminate; contradiction.
Qed.

(** A scalar function: (f(s+h) - f(s)) / h. *)
Theorem c31_scalar_function (e at_ : AST N) x s c y yh :
  outcome at_ c (Ok [Scalar s]) ->
  outcome e (set_num c x s) (Ok [Scalar y]) -> outcome e (set_num c x (nadd s step_h)) (Ok [Scalar yh]) ->
  outcome (ADer e x at_) c (Ok [Scalar (ndiv (nadd yh (nmul y nm1)) step_h)]).
Proof. intros Ha Hx Hxh. exact (c31_difference_quotient e at_ x s c [Scalar y] [Scalar yh] Ha Hx Hxh eq_refl). Qed.

Theorem c31_non_scalar_point (e at_ : AST N) x v c :
  outcome at_ c (Ok [v]) -> get_scalar v = None ->
  outcome (ADer e x at_) c (Err (MathError "Only scalar values are allowed!")).
Proof.
  intros [_ [f1 H1]] Hv. unfold eval in *. split; [discriminate|].
  exists (S f1). intros [|f] Hf; [lia|]. unfold eval. cbn [eval_rec].
  rewrite H1 by lia. cbn [bind]. rewrite !concatM_one. destruct v; try reflexivity. discriminate.
Qed.

Theorem c31_different_counts (e at_ : AST N) x s c fxs fxhs :
  outcome at_ c (Ok [Scalar s]) ->
  outcome e (set_num c x s) (Ok fxs) -> outcome e (set_num c x (nadd s step_h)) (Ok fxhs) ->
  List.length fxs <> List.length fxhs ->
  outcome (ADer e x at_) c (Err (MathError "Amount of solutions for f(x) and f(x+h) are different!")).
Proof.
  intros [_ [f1 H1]] [_ [f2 H2]] [_ [f3 H3]] Hl. unfold eval in *. split; [discriminate|].
  exists (S (Nat.max f1 (Nat.max f2 f3))). intros [|f] Hf; [lia|]. unfold eval. cbn [eval_rec].
  rewrite H1 by lia. cbn [bind]. rewrite !concatM_one. unfold calculate_derivative.
  rewrite add_remove. fold (set_num c x s). rewrite H2 by lia.
  rewrite add_remove. change (add_var (set_num c x s) (mkVar x [Scalar (nadd s eps)])) with (set_num (set_num c x s) x (nadd s eps)).
  rewrite set_set. change eps with step_h. rewrite H3 by lia.
  rewrite (proj2 (Nat.eqb_neq _ _) Hl). reflexivity.
Qed.

Theorem c31_outer_variable_hidden (e at_ : AST N) x vs c ra r :
  outcome at_ c ra -> outcome at_ (add_var c (mkVar x vs)) ra ->
  outcome (ADer e x at_) (add_var c (mkVar x vs)) r <-> outcome (ADer e x at_) c r.
Proof. exact (derivative_hides_outcome [] e at_ x c vs ra r). Qed.

(** The public function [calculate_derivative] works on the caller's context:
    a variable named [x] is gone afterwards (whenever the call succeeds), all
    others are kept. *)
Theorem c31_callers_context (e : AST N) x v c f vs :
  fst (calculate_derivative (eval f) e x v c) = Ok vs ->
  snd (calculate_derivative (eval f) e x v c) = remove_var c x.
Proof.
  unfold calculate_derivative. destruct v as [|?|s]; cbn [fst snd]; try discriminate.
  destruct (eval f e _) as [fxs| | |]; cbn [fst snd]; try discriminate.
  match goal with |- context [eval f e ?c] => destruct (eval f e c) as [fxhs| | |] end; cbn [fst snd]; try discriminate.
  destruct (negb _); cbn [fst snd]; try discriminate.
  destruct (mapM _ _); cbn [fst snd]; try discriminate. intros _.
  unfold remove_var, add_var. cbn. f_equal.
  assert (E : forall l : list (MVar N), filter (fun v => negb (str_eqb (var_name v) x)) (l ++ [mkVar x [Scalar (nadd s eps)]]) =
                filter (fun v => negb (str_eqb (var_name v) x)) l).
  { intros l. rewrite filter_app. cbn. rewrite str_eqb_refl. cbn. apply app_nil_r. }
  assert (E' : forall l : list (MVar N), filter (fun v => negb (str_eqb (var_name v) x)) (l ++ [mkVar x [Scalar s]]) =
                filter (fun v => negb (str_eqb (var_name v) x)) l).
  { intros l. rewrite filter_app. cbn. rewrite str_eqb_refl. cbn. apply app_nil_r. }
  rewrite E, !filter_idem, E', !filter_idem. reflexivity.
Qed.
End Props.

(** ** binary64 *)
Section Floats.
Variable lm : Libm.
Context {En : Env}.
Local Instance NF : Num := F64 lm.

(** C28: exchanging the bounds changes nothing - not even the sign. *)
Theorem c28_swapped_bounds (e la lb : AST NF) x a b c r :
  outcome la c (Ok [Scalar a]) -> outcome lb c (Ok [Scalar b]) ->
  outcome (AInt e x la lb) c r <-> outcome (AInt e x lb la) c r.
Proof.
  intros [_ [f1 H1]] [_ [f2 H2]]. unfold eval in *. apply (hides_transfer []).
  exists (S (Nat.max f1 f2)). intros [|f] Hf; [lia|]. cbn [eval_rec].
  rewrite H1, H2 by lia. cbn [bind]. rewrite !concatM_one. unfold calculate_integral.
  change (@neqb NF) with feqb. change (@nltb NF) with fltb. rewrite (feqb_sym b a).
  destruct (feqb a b) eqn:E; [reflexivity|].
  destruct (ftrichotomy a b) as [H|[H|[H|H]]]; [congruence| | |].
  - now rewrite H, (fltb_asym _ _ H).
  - now rewrite H, (fltb_asym _ _ H).
  - (* NaN: the loop does not run *)
    assert (Hnan : forall d p q, p = S754_nan \/ q = S754_nan -> forall n vs, integral_loop (fun b c => eval_rec f b c []) (S n) e x c vs d q p [] = Ok []).
    { intros d p q Hpq n vs. cbn [integral_loop]. change (@nltb NF) with fltb.
      replace (fltb p q) with false; [reflexivity|]. destruct Hpq; subst; unfold fltb, SFltb; [reflexivity|]. now destruct p. }
    assert (H' : a = S754_nan \/ b = S754_nan).
    { destruct H; [left; destruct a|right; destruct b]; cbn in *; congruence. }
    assert (L1 : fltb a b = false) by (destruct H'; subst; unfold fltb, SFltb; [reflexivity|now destruct a]).
    assert (L2 : fltb b a = false) by (destruct H'; subst; unfold fltb, SFltb; [now destruct b|reflexivity]).
    rewrite L1, L2. destruct f as [|f']; [reflexivity|].
    rewrite !Hnan by tauto. reflexivity.
Qed.

Lemma width_not_negative (a b : f64) : fvalid a = true -> fvalid b = true -> fltb a b = true ->
  fvalid (@width NF En a b) = true /\ not_negative (@width NF En a b).
Proof.
  intros Ha Hb Hab. unfold width. change (@ndiv NF) with fdiv. change (@nsub NF) with fsub.
  assert (Hv : fvalid (fsub b a) = true) by now apply fsub_valid.
  assert (P : forall m e, fvalid (S754_finite false m e) = true ->
            fvalid (fdiv (fsub b a) (S754_finite false m e)) = true /\ not_negative (fdiv (fsub b a) (S754_finite false m e))).
  { intros m e Hm. split; [now apply fdiv_valid|]. apply fdiv_not_negative; auto; [|now apply fsub_not_negative].
    cbn. apply Flocq.Core.Float_prop.F2R_gt_0. reflexivity. }
  unfold PREC, pow10. destruct high_prec.
  - assert (E : @npowi NF (nof_Z 10) (13 - 3) = S754_finite false 5242880000000000 (-19) :> f64) by (vm_compute; reflexivity).
    change (@npowi (F64 lm) (@nof_Z (F64 lm) 10) (13 - 3)) with (@npowi NF (nof_Z 10) (13 - 3)) in *. rewrite E. apply P. reflexivity.
  - assert (E : @npowi NF (nof_Z 10) (8 - 3) = S754_finite false 6871947673600000 (-36) :> f64) by (vm_compute; reflexivity).
    change (@npowi (F64 lm) (@nof_Z (F64 lm) 10) (8 - 3)) with (@npowi NF (nof_Z 10) (8 - 3)) in *. rewrite E. apply P. reflexivity.
Qed.

Lemma steps_are_finite (dx ub : f64) : fvalid dx = true -> fvalid ub = true -> not_negative dx ->
  forall n p, fvalid p = true -> (Z.to_nat (fkey ub - fkey p) < n)%nat ->
  (forall q : f64, @leads NF dx ub p q -> fltb q ub = true -> feqb (fadd q dx) q = false) ->
  exists ps, @visits NF dx ub p ps.
Proof.
  intros Hdx Hub Hn. induction n as [|n IH]; intros p Hp Hm Hs; [lia|].
  destruct (fltb p ub) eqn:Hlt; [|exists []; now constructor].
  assert (Hstep : exists ps, @visits NF dx ub (fadd p dx) ps).
  { destruct (fadd_progress p dx Hp Hdx Hn) as [H|[H|H]].
    - apply IH; [now apply fadd_valid| |].
      + pose proof (fkey_lt p (fadd p dx) Hp (fadd_valid _ _ Hp Hdx) H). pose proof (fkey_lt p ub Hp Hub Hlt). lia.
      + intros q Hq Hq'. apply Hs; [|assumption]. now apply L_step.
    - rewrite Hs in H; [discriminate|constructor|assumption].
    - rewrite H. exists []. constructor. reflexivity. }
  destruct Hstep as [ps Hps]. exists (p :: ps). now constructor.
Qed.

(** C30: an integral of a scalar function that is defined at all sampled points
    terminates exactly if no step is lost in rounding. *)
Theorem c30_terminates_iff_every_step_counts (e la lb : AST NF) x (a b : f64) c :
  distinct_names c ->
  outcome la c (Ok [Scalar a]) -> outcome lb c (Ok [Scalar b]) ->
  fvalid a = true -> fvalid b = true -> fltb a b = true ->
  (forall q, leads (@width NF En a b) b a q -> fltb q b = true ->
     exists s, outcome e (set_num c x (sample (@width NF En a b) q)) (Ok [Scalar s])) ->
  (exists r, outcome (AInt e x la lb) c r) <->
  (forall q, leads (@width NF En a b) b a q -> fltb q b = true -> feqb (fadd q (@width NF En a b)) q = false).
Proof.
  intros Hc Ha Hb Va Vb Hab Hs. destruct (width_not_negative a b Va Vb Hab) as [Vw Nw].
  assert (E1 : feqb a b = false).
  { unfold fltb, SFltb, feqb, SFeqb in *. destruct (SFcompare a b) as [[]|]; congruence. }
  assert (E2 : fltb b a = false) by now apply fltb_asym.
  split.
  - intros [r Hr] q Hl Hq. destruct (feqb (fadd q (@width NF En a b)) q) eqn:E; [exfalso|reflexivity].
    apply (outcome_not_diverges _ _ _ Hr).
    (* the step after [q] is lost for good *)
    assert (Hq' : fltb (fadd q (@width NF En a b)) b = true).
    { apply feqb_cases in E as [E|(s & s' & E & ->)]; [now rewrite E|]. rewrite E.
      revert Hq. destruct b as [[]|[]| |[] ? ?], s, s'; exact (fun H => H). }
    apply (integral_diverges e la lb x a b c (fadd q (@width NF En a b))); try assumption.
    + assert (G : forall p, leads (@width NF En a b) b p q -> leads (@width NF En a b) b p (fadd q (@width NF En a b))).
      { clear -Hq. intros p Hl. induction Hl as [p|p q' Hp Hl IH].
        - apply L_step; [assumption|constructor].
        - apply L_step; auto. }
      now apply G.
    + apply fadd_stuck. assumption.
  - intros Hsteps. destruct (steps_are_finite (@width NF En a b) b Vw Vb Nw (S (Z.to_nat (fkey b - fkey a))) a Va ltac:(lia) Hsteps) as [ps Hps].
    apply (integral_terminates [] e la lb x a b c ps); try assumption.
    intros q Hq. destruct (visits_leads _ _ _ _ Hps q Hq) as [Hl Hlt]. destruct (Hs q Hl Hlt) as [s Ho]. eauto.
Qed.

(** The same with an integrand that may also fail. *)
Theorem c30_terminates_if_every_step_counts (e la lb : AST NF) x (a b : f64) c :
  distinct_names c ->
  outcome la c (Ok [Scalar a]) -> outcome lb c (Ok [Scalar b]) ->
  fvalid a = true -> fvalid b = true -> fltb a b = true ->
  (forall q, leads (@width NF En a b) b a q -> fltb q b = true ->
     exists r, outcome e (set_num c x (sample (@width NF En a b) q)) r) ->
  (forall q, leads (@width NF En a b) b a q -> fltb q b = true -> feqb (fadd q (@width NF En a b)) q = false) ->
  exists r, outcome (AInt e x la lb) c r.
Proof.
  intros Hc Ha Hb Va Vb Hab Hs Hsteps. destruct (width_not_negative a b Va Vb Hab) as [Vw Nw].
  assert (E1 : feqb a b = false).
  { unfold fltb, SFltb, feqb, SFeqb in *. destruct (SFcompare a b) as [[]|]; congruence. }
  assert (E2 : fltb b a = false) by now apply fltb_asym.
  destruct (steps_are_finite (@width NF En a b) b Vw Vb Nw (S (Z.to_nat (fkey b - fkey a))) a Va ltac:(lia) Hsteps) as [ps Hps].
  apply (integral_terminates [] e la lb x a b c ps); try assumption.
  intros q Hq. destruct (visits_leads _ _ _ _ Hps q Hq) as [Hl Hlt]. eauto.
Qed.

(** C31: the step is the binary64 number nearest to 10^-PREC. *)
Theorem c31_step_is_ten_to_the_minus_prec :
  Some (step_h (N := NF)) = parse_f64 (if high_prec then lit "1e-13" else lit "1e-8").
Proof. unfold step_h, PREC. destruct high_prec; vm_compute; reflexivity. Qed.
End Floats.

(** ** The theorems at work *)
Module Examples.
Local Existing Instance NT.
Local Existing Instance ET.
Definition ctx0 : Ctx NT := mkCtx [] [].
Definition vx : AST NT := AVar (lit "x").
Definition X : str := lit "x".

(** I(x, x, 2, 2) = 0 *)
Example equal_bounds : outcome (AInt vx X (AScalar (num 2)) (AScalar (num 2))) ctx0 (Ok [sc 0]).
Proof.
  apply (c28_equal_bounds vx (AScalar (num 2)) (AScalar (num 2)) X (num 2) (num 2) ctx0); try (apply (scalar_outcome [])). reflexivity.
Qed.
(** I(x, x, [1,2], 2) *)
Example vector_bound : outcome (AInt vx X (ast_from_value (ve [1; 2]%Z)) (AScalar (num 2))) ctx0
  (Err (MathError "Only scalar bounds are allowed!")).
Proof.
  apply (c28_non_scalar_bound vx _ (AScalar (num 2)) X (ve [1; 2]%Z) (sc 2) ctx0).
  - apply (from_value_outcome []).
  - apply (scalar_outcome []).
  - now left.
Qed.
(** I(x, x, 0, 1) and I(x, x, 1, 0) have the same outcome, whatever it is. *)
Example swapped r :
  outcome (AInt vx X (AScalar (num 0)) (AScalar (num 1))) ctx0 r <-> outcome (AInt vx X (AScalar (num 1)) (AScalar (num 0))) ctx0 r.
Proof. apply (c28_swapped_bounds toy vx _ _ X (num 0) (num 1)); apply (scalar_outcome []). Qed.
(** Setting [x] to 7 first makes no difference to I(x, x, 0, 1). *)
Example outer_hidden r :
  outcome (AInt vx X (AScalar (num 0)) (AScalar (num 1))) (add_var ctx0 (mkVar X [sc 7])) r <->
  outcome (AInt vx X (AScalar (num 0)) (AScalar (num 1))) ctx0 r.
Proof.
  apply (c28_outer_variable_hidden vx _ _ X [sc 7] ctx0 (Ok [sc 0]) (Ok [sc 1])); try apply (scalar_outcome []). constructor.
Qed.

(** Finding: I(x, x, 1e20, 1e20 + 16384) never returns: the strips are 0.16384
    wide, the floats there 16384 apart. *)
Definition big : @T NT := num 100000000000000000000.
Definition big' : @T NT := num 100000000000000016384.
Lemma x_outcome c s : outcome vx (set_num c X s) (Ok [Scalar s]).
Proof.
  pose proof (var_outcome (N := NT) [] (set_num c X s) X) as H. revert H.
  replace (lookup_var (set_num c X s) X) with (Some (mkVar (N := NT) X [Scalar s])); [auto|].
  unfold set_num, add_var, lookup_var. cbn [vars]. rewrite find_app.
  replace (find _ (filter _ (vars c))) with (@None (MVar NT)); [reflexivity|].
  symmetry. destruct (find _ _) eqn:E; [|reflexivity]. apply find_some in E as [E1 E2]. apply filter_In in E1 as [_ E1].
  cbn [var_name] in E1. rewrite E2 in E1. discriminate.
Qed.
Example never_returns : diverges (AInt vx X (AScalar big) (AScalar big')) ctx0.
Proof.
  apply (c30_vanishing_step_diverges vx _ _ X big big' ctx0 big).
  - constructor.
  - apply (scalar_outcome []).
  - apply (scalar_outcome []).
  - vm_compute; reflexivity.
  - vm_compute; reflexivity.
  - constructor.
  - vm_compute; reflexivity.
  - apply f_same_eq. vm_compute; reflexivity.
  - intros q _ _. eexists. apply x_outcome.
Qed.
(** ... and so does not the text. *)
Definition is_int (r : res ParserError (AST NT)) (n x : str) (a b : @T NT) : bool :=
  match r with
  | Ok (AInt (AVar n') x' (AScalar a') (AScalar b')) => (str_eqb n' n && str_eqb x' x && f_same a' a && f_same b' b)%bool
  | _ => false
  end.
Lemma is_int_of r n x a b : is_int r n x a b = true -> r = Ok (AInt (AVar n) x (AScalar a) (AScalar b)).
Proof.
  destruct r as [[| | | | | | |e x' l u| |]| | |]; try discriminate. destruct e as [| | | |n'| | | | |]; try discriminate.
  destruct l as [a'| | | | | | | | |]; try discriminate. destruct u as [b'| | | | | | | | |]; try discriminate.
  cbn. intros H. apply andb_true_iff in H as [H H4]. apply andb_true_iff in H as [H H3]. apply andb_true_iff in H as [H1 H2].
  apply f_same_eq in H3, H4. destruct (str_eqb_spec n' n), (str_eqb_spec x' x); congruence.
Qed.
Example never_returns_text f :
  @quick_eval NT ET f (lit "I(x,x,100000000000000000000,100000000000000016384)") ctx0 = Fuel.
Proof.
  unfold quick_eval.
  assert (E : @parse NT ET (lit "I(x,x,100000000000000000000,100000000000000016384)") = Ok (AInt vx X (AScalar big) (AScalar big'))).
  { apply is_int_of. vm_compute. reflexivity. }
  rewrite E. cbn [map_err bind]. rewrite never_returns. reflexivity.
Qed.

(** D(x^2...): D(x*x, x, 3): f(3) = 9, f(3 + 1e-8). *)
Definition sq : AST NT := AOp OMult vx vx.
Lemma sq_outcome c s : outcome sq (set_num c X s) (Ok [Scalar (nmul s s)]).
Proof. pose proof (op_outcome_grid [] (set_num c X s) OMult vx vx [Scalar s] [Scalar s] (x_outcome c s) (x_outcome c s)) as H. apply H. discriminate. Qed.
Example derivative_of_square :
  outcome (ADer sq X (AScalar (num 3))) ctx0
    (Ok [Scalar (ndiv (nadd (nmul (nadd (num 3) step_h) (nadd (num 3) step_h)) (nmul (nmul (num 3) (num 3)) nm1)) step_h)]).
Proof.
  apply (c31_scalar_function sq (AScalar (num 3)) X (num 3) ctx0); [apply (scalar_outcome [])|apply sq_outcome|apply sq_outcome].
Qed.
Example derivative_at_vector : outcome (ADer sq X (ast_from_value (ve [1; 2]%Z))) ctx0 (Err (MathError "Only scalar values are allowed!")).
Proof. apply (c31_non_scalar_point sq _ X (ve [1; 2]%Z)); [apply (from_value_outcome [])|reflexivity]. Qed.

(** Finding: D(x, x, 2^28) = 0, not 1: the step is lost in rounding. *)
Example derivative_zero :
  outcome (ADer vx X (AScalar (num 268435456))) ctx0 (Ok [sc 0]).
Proof.
  pose proof (c31_scalar_function vx (AScalar (num 268435456)) X (num 268435456) ctx0 (num 268435456)
    (nadd (num 268435456) step_h) (scalar_outcome [] _ _) (x_outcome _ _) (x_outcome _ _)) as H.
  revert H. replace (ndiv (nadd (nadd (num 268435456) step_h) (nmul (num 268435456) nm1)) step_h) with (num 0); [exact (fun H => H)|].
  apply f_same_eq. vm_compute. reflexivity.
Qed.
(** Finding: calculate_derivative(&x, "x", &3, &mut context) deletes the
    caller's variable x. *)
Definition ctxx : Ctx NT := mkCtx [mkVar X [sc 7]] [].
Example deletes_x : snd (calculate_derivative (eval 5) vx X (sc 3) ctxx) = ctx0.
Proof. reflexivity. Qed.
End Examples.
