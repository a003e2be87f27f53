(** * PropNoAnswer: C89 - equations that are not nearly satisfied by any real
    numbers have no answers. *)
From Coq Require Import List Bool ZArith Arith Reals Lra Lia SpecFloat String.
From Flocq Require Import Core.Defs IEEE754.BinarySingleNaN.
From Verif Require Import Base F64 Num Types Maths Parser Eval SpecEval FloatFacts CalcSpec CalcProofs SolveSpec
  EvalProofs PropNumber GrammarSpec ShapeSpec PropResults PropSolve EstimateSpec PropEstimate PropAnswers PropEval PropRounding Toy PropParser.
Import ListNotations.
Local Open Scope list_scope.

Section Results.
Variable lm : Libm.
Local Instance NF : Num := F64 lm.
Context {En : Env}.

(** At every point some equation is missed by more than the tolerance of the
    search and the estimate of its rounding errors: no answer. *)
Theorem c89_no_answer (c : Ctx NF) t eqs sv vs : returns_doubles lm ->
  session lm c -> parse t = Ok (AEq eqs sv) -> names_unknowns lm (AEq eqs sv) ->
  (forall l r, In (l, r) eqs -> arithmetic lm c sv l /\ arithmetic lm c sv r) ->
  outcome (AEq eqs sv) c (Ok vs) ->
  (forall xs : list f64, List.length xs = List.length sv -> Forall double xs -> exists l r el er, In (l, r) eqs /\
    measured lm (set_nums c sv xs) l el /\ measured lm (set_nums c sv xs) r er /\
    ((1 + / 2 ^ 50) / 10 ^ Z.to_nat PREC + error_bound (est_add el (est_neg er)) < Rabs (exact el - exact er))%R) ->
  vs = [].
Proof.
  intros Hlm Hs Hp Hn Har Ho Hfar. destruct vs as [|v vs]; [reflexivity|]. exfalso.
  destruct (c76_real_equations lm Hlm c t eqs sv _ v Hs Hp Hn Har Ho (or_introl eq_refl)) as (xs & _ & Hl & Hd & H).
  destruct (Hfar xs Hl Hd) as (l & r & el & er & Hin & Ml & Mr & L). destruct (H l r Hin) as (el' & er' & Ml' & Mr' & B).
  rewrite (c75_estimate_unique lm _ _ _ _ Ml' Ml), (c75_estimate_unique lm _ _ _ _ Mr' Mr) in B. lra.
Qed.

(** For one of them, x*x + p = 0 with p >= 2 * 10^-PREC, the outcome is always the
    empty list of answers. *)
Definition square_plus (x : str) (p : f64) : AST NF := AOp OAdd (AOp OMult (AVar x) (AVar x)) (AScalar (p : @T NF)).
Lemma prec_size : (/ 10000000000000 <= / 10 ^ Z.to_nat PREC)%R.
Proof.
  unfold PREC. destruct high_prec; [change (Z.to_nat 13) with 13|change (Z.to_nat 8) with 8]; apply Rinv_le_contravar; cbn [pow]; lra.
Qed.
Lemma far (X P T : R) : (/ 10000000000000 <= T)%R -> (2 * T <= P)%R ->
  ((1 + / 2 ^ 50) * T + ((1 + unit_roundoff) ^ 3 * (Rabs X * Rabs X + EstimateSpec.tiny + Rabs P + Rabs 0) - (Rabs X * Rabs X + Rabs P + Rabs 0)) < Rabs (X * X + P - 0))%R.
Proof.
  intros HT HP. rewrite <- Rabs_mult, Rabs_R0, Rplus_0_r, Rplus_0_r, Rminus_0_r. pose proof (Rle_0_sqr X) as Q. unfold Rsqr in Q.
  rewrite !Rabs_pos_eq by lra. set (Y := (X * X)%R) in *. unfold unit_roundoff, EstimateSpec.tiny.
  assert (U : (0 < / 2 ^ 53 <= / 9000000000000000)%R) by (split; [apply Rinv_0_lt_compat, pow_lt; lra|apply Rinv_le_contravar; [lra|]; cbn; lra]).
  assert (V : (/ 2 ^ 50 <= / 1000000000000000)%R) by (apply Rinv_le_contravar; [lra|]; cbn; lra).
  assert (W : (0 < / 2 ^ 1075 <= / 2 ^ 53)%R) by (split; [apply Rinv_0_lt_compat, pow_lt; lra|apply Rinv_le_contravar; [apply pow_lt; lra|apply Rle_pow; [lra|lia]]]).
  assert (W' : (/ 2 ^ 1075 <= / 9000000000000000)%R) by lra.
  set (u := (/ 2 ^ 53)%R) in *. set (w := (/ 2 ^ 50)%R) in *. set (tn := (/ 2 ^ 1075)%R) in *. clearbody u w tn Y.
  assert (C : ((1 + u) ^ 3 <= 1 + 4 * u)%R) by (cbn [pow]; nra).
  assert (D : ((1 + u) ^ 3 * (Y + tn + P) <= (1 + 4 * u) * (Y + tn + P))%R) by (apply Rmult_le_compat_r; lra).
  assert (4 * u * (Y + P) <= / 1000 * (Y + P))%R by (apply Rmult_le_compat_r; lra).
  assert (4 * u * tn <= / 1000 * tn)%R by (apply Rmult_le_compat_r; lra).
  assert (w * T <= / 1000 * T)%R by (apply Rmult_le_compat_r; lra).
  lra.
Qed.

Theorem c89_no_square (c : Ctx NF) t x (p : f64) : returns_doubles lm -> session lm c ->
  parse t = Ok (AEq [(square_plus x p, AScalar (f0 : @T NF))] [x]) -> ~ defined c [x] ->
  double p -> (2 / 10 ^ Z.to_nat PREC <= fR p)%R ->
  outcome (AEq [(square_plus x p, AScalar (f0 : @T NF))] [x]) c (Ok []).
Proof.
  intros Hlm Hs Hp Hdf Dp Hpos.
  assert (Kp : known lm c [x] (AScalar (p : @T NF)) p) by now constructor.
  assert (K0 : known lm c [x] (AScalar (f0 : @T NF)) f0) by (constructor; split; reflexivity).
  destruct (c72_always_an_answer lm [(square_plus x p, AScalar (f0 : @T NF))] [x] c) as (vs & Ho); [constructor; [intros []|constructor]|discriminate|exact Hdf|cbn; lia| |].
  - intros xs Hx e [<-|[]]. destruct xs as [|a [|? ?]]; try discriminate. change (set_nums c [x] [a]) with (set_num c x a).
    assert (Ea : outcome (AVar x) (set_num c x a) (Ok [@Scalar NF a])).
    { refine (c15_variable _ _ (mkVar x [@Scalar NF a]) _). exact (eq_trans (lookup_set_num lm c x a x) (f_equal (fun b : bool => if b then _ else _) (proj2 (str_eqb_eq x x) eq_refl))). }
    assert (Es : forall q : f64, outcome (AScalar (q : @T NF)) (set_num c x a) (Ok [@Scalar NF q])) by (intros q; now apply (outcome_intro 1)).
    eexists. exists []. cbn [fst snd]. eapply (scalar_op lm); [|apply Es|reflexivity].
    eapply (scalar_op lm); [|apply Es|reflexivity]. eapply (scalar_op lm); [exact Ea|exact Ea|reflexivity].
  - enough (vs = []) as -> by exact Ho. refine (c89_no_answer c t _ [x] vs Hlm Hs Hp _ _ Ho _).
    + intros eqs sv Hn. inversion Hn as [|y ? Hx H1]; subst; [discriminate|]. exfalso. clear Hn.
      repeat match goal with
      | H : _ \/ _ |- _ => destruct H as [<-|H]
      | H : False |- _ => destruct H
      | H : In _ (ParserSpec.children _) |- _ => cbn in H
      | H : ParserSpec.node _ _ |- _ => inversion H; clear H; subst
      end.
    + intros l r [E|[]]. injection E as <- <-. split; [|now apply A_known with f0].
      apply A_add; [apply A_mult; apply A_unknown; now left|now apply A_known with p].
    + intros xs Hx Hd. destruct xs as [|a [|? ?]]; try discriminate. inversion Hd as [|? ? Da _]; subst.
      assert (Ma : measured lm (set_nums c [x] [a]) (AVar x) (of_double a)).
      { apply M_number. apply (NI_variable lm _ x (mkVar x [@Scalar NF a]) a); [|reflexivity|exact Da].
        change (set_nums c [x] [a]) with (set_num c x a). exact (eq_trans (lookup_set_num lm c x a x) (f_equal (fun b : bool => if b then _ else _) (proj2 (str_eqb_eq x x) eq_refl))). }
      exists (square_plus x p), (AScalar (f0 : @T NF)), (est_add (est_mult (of_double a) (of_double a)) (of_double p)), (of_double f0).
      split; [now left|]. split; [apply M_add; [now apply M_mult|apply M_number; now constructor]|]. split; [apply M_number; constructor; split; reflexivity|].
      cbn [exact est_add est_neg est_mult of_double with_peak]. unfold error_bound, reach.
      cbn [est_add est_neg est_mult of_double with_peak steps room magnitude]. change (S (Nat.max (S (Nat.max 1 0)) 0)) with 3.
      assert (Z0 : fR f0 = 0%R) by (cbn; lra). rewrite Z0. unfold Rdiv in *. apply far; [exact prec_size|exact Hpos].
Qed.

(** x = p and x = q at once, for clearly different p and q: no answer either. *)
Lemma apart (X P Q T : R) : (/ 10000000000000 <= T)%R -> (3 * T + / 2 ^ 50 * (Rabs P + Rabs Q) <= Rabs (P - Q))%R ->
  (Rabs (X - P) <= (1 + / 2 ^ 50) * T + ((1 + unit_roundoff) ^ 1 * (Rabs X + Rabs P) - (Rabs X + Rabs P)))%R ->
  ((1 + / 2 ^ 50) * T + ((1 + unit_roundoff) ^ 1 * (Rabs X + Rabs Q) - (Rabs X + Rabs Q)) < Rabs (X - Q))%R.
Proof.
  intros HT HPQ H1. apply Rnot_le_lt. intros H2. unfold unit_roundoff in *. rewrite pow_1 in *.
  assert (V : (0 < / 2 ^ 50 <= / 1000000000000000)%R) by (split; [apply Rinv_0_lt_compat, pow_lt; lra|apply Rinv_le_contravar; [lra|]; cbn; lra]).
  assert (U : (8 * / 2 ^ 53 = / 2 ^ 50)%R) by (cbn; lra).
  set (u := (/ 2 ^ 53)%R) in *. set (w := (/ 2 ^ 50)%R) in *. clearbody u w.
  pose proof (Rabs_pos P) as BP. pose proof (Rabs_pos Q) as BQ. pose proof (Rabs_pos X) as BX.
  assert (TX : (Rabs X <= Rabs (X - P) + Rabs P)%R) by (replace X with ((X - P) + P)%R at 1 by ring; apply Rabs_triang).
  assert (TP : (Rabs (P - Q) <= Rabs (X - P) + Rabs (X - Q))%R).
  { replace (P - Q)%R with (- (X - P) + (X - Q))%R by ring. eapply Rle_trans; [apply Rabs_triang|]. rewrite Rabs_Ropp. lra. }
  set (x := Rabs X) in *. set (p := Rabs P) in *. set (q := Rabs Q) in *. set (a := Rabs (X - P)) in *. set (b := Rabs (X - Q)) in *. set (d := Rabs (P - Q)) in *.
  clearbody x p q a b d.
  assert (Ux : (u * x <= / 1000 * x)%R) by (apply Rmult_le_compat_r; lra).
  assert (Up : (u * p <= / 1000 * p)%R) by (apply Rmult_le_compat_r; lra).
  assert (WT : (w * T <= / 1000 * T)%R) by (apply Rmult_le_compat_r; lra).
  assert (Xb : (x <= 2 * p + 2 * T)%R) by lra.
  assert (Uxb : (u * x <= u * (2 * p + 2 * T))%R) by (apply Rmult_le_compat_l; lra).
  assert (Uq : (0 <= u * q)%R) by (apply Rmult_le_pos; lra).
  assert (Up0 : (0 <= u * p)%R) by (apply Rmult_le_pos; lra).
  assert (Ut : (u * T <= / 1000 * T)%R) by (apply Rmult_le_compat_r; lra).
  rewrite <- U in HPQ. lra.
Qed.
Theorem c89_contradiction (c : Ctx NF) t x (p q : f64) : returns_doubles lm -> session lm c ->
  parse t = Ok (AEq [(AVar x, AScalar (p : @T NF)); (AVar x, AScalar (q : @T NF))] [x]) -> ~ defined c [x] ->
  double p -> double q -> (3 / 10 ^ Z.to_nat PREC + / 2 ^ 50 * (Rabs (fR p) + Rabs (fR q)) <= Rabs (fR p - fR q))%R ->
  outcome (AEq [(AVar x, AScalar (p : @T NF)); (AVar x, AScalar (q : @T NF))] [x]) c (Ok []).
Proof.
  intros Hlm Hs Hp Hdf Dp Dq Hpos.
  assert (L : forall a : f64, lookup_var (set_num c x (a : @T NF)) x = Some (mkVar x [@Scalar NF a])).
  { intros a. exact (eq_trans (lookup_set_num lm c x a x) (f_equal (fun b : bool => if b then _ else _) (proj2 (str_eqb_eq x x) eq_refl))). }
  destruct (c72_always_an_answer lm [(AVar x, AScalar (p : @T NF)); (AVar x, AScalar (q : @T NF))] [x] c) as (vs & Ho); [constructor; [intros []|constructor]|discriminate|exact Hdf|cbn; lia| |].
  - intros xs Hx e He. destruct xs as [|a [|? ?]]; try discriminate. change (set_nums c [x] [a]) with (set_num c x a).
    assert (Ea : outcome (AVar x) (set_num c x a) (Ok [@Scalar NF a])) by (refine (c15_variable _ _ (mkVar x [@Scalar NF a]) _); apply L).
    assert (Es : forall q : f64, outcome (AScalar (q : @T NF)) (set_num c x a) (Ok [@Scalar NF q])) by (intros ?; now apply (outcome_intro 1)).
    destruct He as [<-|[<-|[]]]; eexists; exists []; cbn [fst snd]; (eapply (scalar_op lm); [exact Ea|apply Es|reflexivity]).
  - enough (vs = []) as -> by exact Ho. refine (c89_no_answer c t _ [x] vs Hlm Hs Hp _ _ Ho _).
    + intros eqs sv Hn. inversion Hn as [|y ? Hx H1]; subst; [discriminate|]. exfalso. clear Hn.
      repeat match goal with
      | H : _ \/ _ |- _ => destruct H as [<-|H]
      | H : False |- _ => destruct H
      | H : In _ (ParserSpec.children _) |- _ => cbn in H
      | H : ParserSpec.node _ _ |- _ => inversion H; clear H; subst
      end.
    + intros l r Hin. assert (A : arithmetic lm c [x] (AVar x)) by (apply A_unknown; now left).
      destruct Hin as [E|[E|[]]]; injection E as <- <-; (split; [exact A|]); [apply A_known with p|apply A_known with q]; now constructor.
    + intros xs Hx Hd. destruct xs as [|a [|? ?]]; try discriminate. inversion Hd as [|? ? Da _]; subst.
      assert (Ma : measured lm (set_nums c [x] [a]) (AVar x) (of_double a)).
      { apply M_number. apply (NI_variable lm _ x (mkVar x [@Scalar NF a]) a); [|reflexivity|exact Da]. apply L. }
      assert (Ms : forall z, double z -> measured lm (set_nums c [x] [a]) (AScalar (z : @T NF)) (of_double z)) by (intros z Hz; apply M_number; now constructor).
      pose proof (apart (fR a) (fR p) (fR q) (/ 10 ^ Z.to_nat PREC) prec_size Hpos) as Hap.
      destruct (Rle_lt_dec (Rabs (fR a - fR p)) ((1 + / 2 ^ 50) * / 10 ^ Z.to_nat PREC + ((1 + unit_roundoff) ^ 1 * (Rabs (fR a) + Rabs (fR p)) - (Rabs (fR a) + Rabs (fR p))))) as [Hc|Hc].
      * exists (AVar x), (AScalar (q : @T NF)), (of_double a), (of_double q). split; [right; now left|]. split; [exact Ma|]. split; [now apply Ms|]. exact (Hap Hc).
      * exists (AVar x), (AScalar (p : @T NF)), (of_double a), (of_double p). split; [now left|]. split; [exact Ma|]. split; [now apply Ms|]. exact Hc.
Qed.
End Results.

Module Examples.
Local Existing Instance NT.
Local Existing Instance ET.
Definition X : str := lit "x".
Definition ctx0 : Ctx NT := mkCtx [] [].
(** x*x+1=0 *)
Example text : @parse NT ET (lit "eq(x*x+1=0,x)") = Ok (AEq [(square_plus toy X (num 1), AScalar (num 0))] [X]).
Proof. reflexivity. Qed.
Example one : fR (num 1) = 1%R.
Proof. unfold fR, num. replace (@nof_Z NT 1) with (S754_finite false 4503599627370496 (-52)) by (vm_compute; reflexivity). unfold SF2R. unfold Defs.F2R. cbn. lra. Qed.
Example no_answer : outcome (AEq [(square_plus toy X (num 1), AScalar (num 0))] [X]) ctx0 (Ok []).
Proof.
  apply (c89_no_square toy ctx0 _ X (num 1) PropEstimate.Examples.toy_doubles (Start_empty toy) text).
  - intros (n & v & _ & [] & _).
  - split; reflexivity.
  - rewrite one. replace PREC with 8%Z by reflexivity. change (Z.to_nat 8) with 8. cbn [pow]. lra.
Qed.
(** x=1, x=2 *)
Example contradiction_text : @parse NT ET (lit "eq(x=1,x=2,x)") = Ok (AEq [(AVar X, AScalar (num 1)); (AVar X, AScalar (num 2))] [X]).
Proof. reflexivity. Qed.
Example two : fR (num 2) = 2%R.
Proof. unfold fR, num. replace (@nof_Z NT 2) with (S754_finite false 4503599627370496 (-51)) by (vm_compute; reflexivity). unfold SF2R. unfold Defs.F2R. cbn. lra. Qed.
Example no_common_answer : outcome (AEq [(AVar X, AScalar (num 1)); (AVar X, AScalar (num 2))] [X]) ctx0 (Ok []).
Proof.
  apply (c89_contradiction toy ctx0 _ X (num 1) (num 2) PropEstimate.Examples.toy_doubles (Start_empty toy) contradiction_text).
  - intros (n & v & _ & [] & _).
  - split; reflexivity.
  - split; reflexivity.
  - rewrite one, two. replace PREC with 8%Z by reflexivity. change (Z.to_nat 8) with 8. rewrite (Rabs_left (1 - 2)), !Rabs_pos_eq by lra. cbn [pow]. lra.
Qed.
End Examples.
