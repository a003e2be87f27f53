(** * PropAccuracy: C55 - how far integrals and derivatives are from the true
    ones; C56 - they are linear.  Exact arithmetic. *)
From Coq Require Import ZArith Lia List String Ring_theory Ring.
Set Warnings "-notation-overridden,-ambiguous-paths".
From mathcomp Require Import all_ssreflect all_algebra zify.
From Verif Require Import Base BaseFacts F64 Num Types Maths Parser Eval SpecEval EvalProofs CalcSpec CalcProofs PropEval PropCalc
  Exact ExactSpec ExactLinear ExactRound PropExact PropCalcExact.
Import GRing.Theory Order.Theory mathcomp.algebra.ssrnum.Num.Theory.
Set Implicit Arguments.
Unset Strict Implicit.
Unset Printing Implicit Defensive.
Local Open Scope ring_scope.

Section Spec.
Variable F : archiFieldType.
(** [G] is an antiderivative of [f] on the interval from [lo] to [hi], and its
    second order remainder is at most [K (t - s)^2] (so [K] is half a bound of
    the second derivative of [G], that is of the slope of [f]). *)
Definition antiderivative (G f : F -> F) (K lo hi : F) : Prop :=
  forall s t, lo <= s <= hi -> lo <= t <= hi -> `|G t - G s - f s * (t - s)| <= K * (t - s) ^+ 2.
End Spec.

Section Identities.
Variables (R : Type) (rO rI : R) (radd rmul rsub : R -> R -> R) (ropp : R -> R).
Hypothesis RT : ring_theory rO rI radd rmul rsub ropp eq.
Add Ring Rring2 : RT.
Local Infix "+" := radd. Local Infix "*" := rmul. Local Infix "-" := rsub.
(** [e] is half a strip, [s] the sample, the strip is from [s + e] to [s + 3 e]. *)
Lemma strip_error (g0 g1 g3 y e : R) :
  y * (e + e) - (g3 - g1) = (g1 - g0 - y * e) - (g3 - g0 - y * (e + e + e)).
Proof. ring. Qed.
Lemma strip_bound (K e : R) : K * (e * e) + K * ((e + e + e) * (e + e + e)) = (K + K + (K + K) + K) * (e + e) * e.
Proof. ring. Qed.
Lemma prod5 (c K d i : R) : c * K * d * (d * i) = c * i * K * d * d.
Proof. ring. Qed.
Lemma prod_rot (c S d : R) : c * (S * d) * d = S * (c * d * d).
Proof. ring. Qed.
Lemma cube_id (s t : R) :
  t * (t * t) - s * (s * s) - s * s * (t - s) * (rI + rI + rI) = (t - s) * (t - s) * (s + s + t).
Proof. ring. Qed.
Lemma square_step (s h : R) : (s + h) * (s + h) - s * s - (s + s) * h = h * h.
Proof. ring. Qed.
End Identities.

Section Props.
Context {En : Env}.
Variables (F : archiFieldType) (L : lib F).
Notation NX := (Exact L).
Notation outcomeX := (@outcome NX En).

Lemma half_strip (a b : F) : strip a b = strip a b / 2%:R + strip a b / 2%:R.
Proof. by rewrite -mulrDr half_half mulr1. Qed.
Lemma point_half (a b : F) k : point a b k = a + k%:R * strip a b - strip a b / 2%:R.
Proof. by rewrite /point mulrBl addrA [2%:R^-1 * _]mulrC. Qed.

(** ** C55 *)
(** The integral from [a] to [b] differs from [G b - G a] by at most
    [5/2 K (b - a) dx], where [dx = (b - a) / 10^(PREC-3)]. *)
Theorem c55_integral (e la lb : AST NX) x a b c (f G : F -> F) K : a < b ->
  distinct_names c ->
  outcomeX la c (Ok [:: sca L a]) -> outcomeX lb c (Ok [:: sca L b]) ->
  (forall s : F, a - strip a b <= s <= b -> outcomeX e (set_num c x (Fin s : @T NX)) (Ok [:: sca L (f s)])) ->
  antiderivative G f K (a - strip a b) b ->
  exists v, outcomeX (AInt e x la lb) c (Ok [:: sca L v]) /\
            outcomeX (AInt e x lb la) c (Ok [:: sca L v]) /\
            `|v - (G b - G a)| <= 5%:R / 2%:R * K * (b - a) * strip a b.
Proof.
  move=> Hab Hc Ha Hb Hf HG. set d := strip a b.
  have Hd : 0 < d by rewrite /d /strip divr_gt0 ?subr_gt0 // ltr0n samples_pos.
  have Hh : 0 < d / 2%:R by rewrite divr_gt0 // ltr0n.
  pose p k : F := a + k%:R * d.
  have Hp k : (k <= samples)%N -> a <= p k <= b.
  { move=> Hk. by rewrite /p ler_addl mulr_ge0 ?ler0n ?(ltW Hd) //= -[X in _ <= X](strip_sum a b) -/d ler_add2l ler_pmul2r // ler_nat. }
  have Epk k : point a b k = p k - d / 2%:R by rewrite point_half.
  have Hdd : d / 2%:R <= d by rewrite [X in _ <= X]half_strip -/d ler_addl (ltW Hh).
  have Hpt k : (k <= samples)%N -> a - d <= point a b k <= b.
  { move=> /Hp /andP[H1 H2]. rewrite Epk. apply/andP; split; first exact: ler_sub.
    by apply: le_trans H2; rewrite ler_subl_addr ler_addl (ltW Hh). }
  have [V1 V2] := c29_exact_sum Hab Hc Ha Hb (fun k (Hk : (k < samples)%N) => Hf _ (Hpt k (ltnW Hk))).
  eexists; split; first exact: V1. split; first exact: V2. rewrite -/d.
  have -> : G b - G a = \sum_(k < samples) (G (p k.+1) - G (p k)).
  { rewrite -(big_mkord xpredT (fun k => G (p k.+1) - G (p k))) telescope_sumr // /p mul0r addr0. by rewrite /d strip_sum. }
  rewrite mulr_sumr -sumrB. apply: le_trans (ler_norm_sum _ _ _) _.
  have -> : 5%:R / 2%:R * K * (b - a) * d = \sum_(k < samples) (5%:R / 2%:R * K * d * d).
  { have -> : b - a = samples%:R * d by rewrite -{1}(strip_sum a b) -/d addrAC subrr add0r.
    rewrite sumr_const card_ord -[RHS]mulr_natl. exact: (prod_rot (F_ring F)). }
  apply: ler_sum => k _. set h := d / 2%:R. set s := point a b k.
  have Ed : d = h + h by exact: half_strip.
  have E1 : p k = s + h by rewrite /s Epk subrK.
  have E3 : p k.+1 = s + (h + h + h) by rewrite /s Epk -/h /p natS mulrDl mul1r {2}Ed !addrA [in RHS]addrAC subrK.
  have Hs := Hpt k (ltnW (ltn_ord k)). have [Hk1 Hk2] := (Hp k (ltnW (ltn_ord k)), Hp k.+1 (ltn_ord k)).
  have Hlo y : a <= y <= b -> a - d <= y <= b.
  { move=> /andP[A B]. rewrite B andbT. apply: le_trans A. by rewrite ler_subl_addr ler_addl (ltW Hd). }
  have B1 := HG s (p k) Hs (Hlo _ Hk1). have B3 := HG s (p k.+1) Hs (Hlo _ Hk2).
  have D1 : s + h - s = h by rewrite addrAC subrr add0r.
  have D3 : s + (h + h + h) - s = h + h + h by rewrite addrAC subrr add0r.
  rewrite E1 D1 in B1. rewrite E3 D3 in B3. rewrite E1 E3.
  have -> : d * f s - (G (s + (h + h + h)) - G (s + h)) = (G (s + h) - G s - f s * h) - (G (s + (h + h + h)) - G s - f s * (h + h + h)).
  { rewrite {1}Ed [_ * f s]mulrC. exact: (strip_error (F_ring F)). }
  apply: le_trans (ler_norm_sub _ _) _. apply: le_trans (ler_add B1 B3) _. rewrite !expr2 (strip_bound (F_ring F)) -Ed.
  have -> : K + K + (K + K) + K = 5%:R * K by rewrite mulr_natl !mulrS mulr0n addr0 !addrA.
  rewrite le_eqVlt; apply/orP; left; apply/eqP. exact: (prod5 (F_ring F)).
Qed.
(** The derivative at [s] differs from [g] by at most [K h], where
    [h = 10^-PREC], if the first order remainder of [f] is at most [K h^2]. *)
Theorem c55_derivative (e at_ : AST NX) x (s g K : F) c (f : F -> F) :
  let h := 10%:R ^- prec in
  outcomeX at_ c (Ok [:: sca L s]) ->
  outcomeX e (set_num c x (Fin s : @T NX)) (Ok [:: sca L (f s)]) ->
  outcomeX e (set_num c x (Fin (s + h) : @T NX)) (Ok [:: sca L (f (s + h))]) ->
  `|f (s + h) - f s - g * h| <= K * h ^+ 2 ->
  exists v, outcomeX (ADer e x at_) c (Ok [:: sca L v]) /\ `|v - g| <= K * h.
Proof.
  move=> h Ha H1 H2 HK. have Hh : 0 < h by rewrite invr_gt0 exprn_gt0 // ltr0n.
  eexists; split; first exact: (c31_exact_quotient Ha H1 H2). rewrite -/h.
  have -> : (f (s + h) - f s) / h - g = (f (s + h) - f s - g * h) / h by rewrite [RHS]mulrBl mulfK // gt_eqF.
  rewrite normf_div (gtr0_norm Hh) ler_pdivr_mulr // -mulrA -expr2. exact: HK.
Qed.

(** ** C56 *)
(** The expression [p*e1 + q*e2]. *)
Definition combined (p q : F) (e1 e2 : AST NX) : AST NX :=
  AOp OAdd (AOp OMult (AScalar (Fin p : @T NX)) e1) (AOp OMult (AScalar (Fin q : @T NX)) e2).
Lemma combined_outcome p q e1 e2 c u v :
  outcomeX e1 c (Ok [:: sca L u]) -> outcomeX e2 c (Ok [:: sca L v]) ->
  outcomeX (combined p q e1 e2) c (Ok [:: sca L (p * u + q * v)]).
Proof.
  move=> H1 H2.
  have A1 := @op_outcome_grid NX En nil c OMult (AScalar (Fin p : @T NX)) e1 [:: sca L p] [:: sca L u] (@scalar_outcome NX En nil _ _) H1.
  have A2 := @op_outcome_grid NX En nil c OMult (AScalar (Fin q : @T NX)) e2 [:: sca L q] [:: sca L v] (@scalar_outcome NX En nil _ _) H2.
  have B1 : outcomeX (AOp OMult (AScalar (Fin p : @T NX)) e1) c (Ok [:: sca L (p * u)]) by apply: A1.
  have B2 : outcomeX (AOp OMult (AScalar (Fin q : @T NX)) e2) c (Ok [:: sca L (q * v)]) by apply: A2.
  by apply: (@op_outcome_grid NX En nil c OAdd _ _ [:: sca L (p * u)] [:: sca L (q * v)] B1 B2).
Qed.
(** The derivative of [p*e1 + q*e2] is [p] times that of [e1] plus [q] times
    that of [e2]. *)
Theorem c56_derivative (e1 e2 at_ : AST NX) x (s p q : F) c (f1 f2 : F -> F) :
  outcomeX at_ c (Ok [:: sca L s]) ->
  (forall t : F, outcomeX e1 (set_num c x (Fin t : @T NX)) (Ok [:: sca L (f1 t)])) ->
  (forall t : F, outcomeX e2 (set_num c x (Fin t : @T NX)) (Ok [:: sca L (f2 t)])) ->
  exists u v, outcomeX (ADer e1 x at_) c (Ok [:: sca L u]) /\ outcomeX (ADer e2 x at_) c (Ok [:: sca L v]) /\
    outcomeX (ADer (combined p q e1 e2) x at_) c (Ok [:: sca L (p * u + q * v)]).
Proof.
  move=> Ha H1 H2. eexists; eexists. split; first exact: (c31_exact_quotient Ha (H1 _) (H1 _)).
  split; first exact: (c31_exact_quotient Ha (H2 _) (H2 _)).
  have := c31_exact_quotient Ha (combined_outcome p q (H1 _) (H2 _)) (combined_outcome p q (H1 _) (H2 _)).
  congr (outcomeX _ _ (Ok [:: sca L _])). rewrite !mulrA -mulrDl. congr (_ / _). by rewrite !mulrBr opprD addrACA.
Qed.
(** So is the integral, between any bounds. *)
Theorem c56_integral (e1 e2 la lb : AST NX) x (a b p q : F) c (f1 f2 : F -> F) :
  distinct_names c ->
  outcomeX la c (Ok [:: sca L a]) -> outcomeX lb c (Ok [:: sca L b]) ->
  (forall t : F, outcomeX e1 (set_num c x (Fin t : @T NX)) (Ok [:: sca L (f1 t)])) ->
  (forall t : F, outcomeX e2 (set_num c x (Fin t : @T NX)) (Ok [:: sca L (f2 t)])) ->
  exists u v, outcomeX (AInt e1 x la lb) c (Ok [:: sca L u]) /\ outcomeX (AInt e2 x la lb) c (Ok [:: sca L v]) /\
    outcomeX (AInt (combined p q e1 e2) x la lb) c (Ok [:: sca L (p * u + q * v)]).
Proof.
  move=> Hc Ha Hb H1 H2.
  have Hlin lo hi : strip lo hi * (\sum_(k < samples) (p * f1 (point lo hi k) + q * f2 (point lo hi k))) =
    p * (strip lo hi * \sum_(k < samples) f1 (point lo hi k)) + q * (strip lo hi * \sum_(k < samples) f2 (point lo hi k)).
  { rewrite big_split /= -!mulr_sumr mulrDr. by rewrite !(mulrCA (strip lo hi)). }
  case: (ltgtP a b) => Hab.
  - have G1 := c29_exact_sum Hab Hc Ha Hb (fun k (_ : (k < samples)%N) => H1 (point a b k)).
    have G2 := c29_exact_sum Hab Hc Ha Hb (fun k (_ : (k < samples)%N) => H2 (point a b k)).
    have G3 := c29_exact_sum Hab Hc Ha Hb (fun k (_ : (k < samples)%N) => combined_outcome p q (H1 (point a b k)) (H2 (point a b k))).
    eexists; eexists. split; first exact: (proj1 G1). split; first exact: (proj1 G2). rewrite -Hlin. exact: (proj1 G3).
  - have G1 := c29_exact_sum Hab Hc Hb Ha (fun k (_ : (k < samples)%N) => H1 (point b a k)).
    have G2 := c29_exact_sum Hab Hc Hb Ha (fun k (_ : (k < samples)%N) => H2 (point b a k)).
    have G3 := c29_exact_sum Hab Hc Hb Ha (fun k (_ : (k < samples)%N) => combined_outcome p q (H1 (point b a k)) (H2 (point b a k))).
    eexists; eexists. split; first exact: (proj2 G1). split; first exact: (proj2 G2). rewrite -Hlin. exact: (proj2 G3).
  - have H0 : forall e : AST NX, outcomeX (AInt e x la lb) c (Ok [:: sca L 0]).
    { move=> e. subst b. apply: (@c28_equal_bounds NX En e la lb x (Fin a) (Fin a) c) => //=; exact: eqxx. }
    exists 0, 0. split; first exact: H0. split; first exact: H0. rewrite !mulr0 addr0. exact: H0.
Qed.
End Props.

Module Examples.
Section Examples.
Context {En : Env}.
Variables (F : archiFieldType) (L : lib F).
Notation NX := (Exact L).
Import PropCalcExact.Examples.
Notation ctx0 := (ctx0 L).
(** [x * x] *)
Definition SQ : AST NX := AOp OMult (AVar X) (AVar X).
Lemma sq_outcome (s : F) : @outcome NX En SQ (set_num ctx0 X (Fin s : @T NX)) (Ok [:: sca L (s ^+ 2)]).
Proof.
  have H := @op_outcome_grid NX En nil (set_num ctx0 X (Fin s : @T NX)) OMult (AVar X) (AVar X) [:: sca L s] [:: sca L s] (x_outcome _) (x_outcome _).
  rewrite expr2. by apply: H.
Qed.
Lemma num_outcome (s : F) : @outcome NX En (AScalar (Fin s : @T NX)) ctx0 (Ok [:: sca L s]).
Proof. exact: (@scalar_outcome NX En nil). Qed.
(** [x^3/3] is an antiderivative of [x^2] on the whole of [-1, 1], with [K = 5/3]. *)
Lemma cube : antiderivative (fun s : F => s ^+ 3 / 3%:R) (fun s => s ^+ 2) (5%:R / 3%:R) (-1) 1.
Proof.
  move=> s t /andP[s0 s1] /andP[t0 t1].
  have -> : t ^+ 3 / 3%:R - s ^+ 3 / 3%:R - s ^+ 2 * (t - s) = (t - s) ^+ 2 * (s + s + t) / 3%:R.
  { have H3 : 3%:R != 0 :> F by rewrite pnatr_eq0.
    apply: (mulIf H3). rewrite [RHS]mulfVK // 2!mulrBl !divfK //.
    rewrite !exprS !expr0 !mulr1 (_ : 3%:R = 1 + 1 + 1 :> F); last by rewrite -addrA.
    exact: (cube_id (F_ring F)). }
  have Hst : `|s + s + t| <= 5%:R.
  { apply: (@le_trans _ _ (1 + 1 + 1)); last by rewrite (_ : 1 + 1 + 1 = 3%:R :> F) ?ler_nat // -addrA.
    have Hs : `|s| <= 1 by rewrite ler_norml s0. have Ht : `|t| <= 1 by rewrite ler_norml t0.
    apply: le_trans (ler_norm_add _ _) _. apply: ler_add Ht. apply: le_trans (ler_norm_add _ _) _. exact: ler_add. }
  rewrite normrM normrM ger0_norm ?sqr_ge0 // (gtr0_norm (x := 3%:R^-1)) ?invr_gt0 ?ltr0n //.
  rewrite -mulrA mulrC. apply: ler_wpmul2r; first exact: sqr_ge0. apply: ler_wpmul2r => //. by rewrite invr_ge0 ler0n.
Qed.
Lemma widen (s : F) : 0 - strip 0 1 <= s <= 1 -> -1 <= s <= 1.
Proof.
  move=> /andP[H1 ->]. rewrite andbT. apply: le_trans H1. rewrite sub0r ler_opp2 /strip subr0 mul1r invf_le1 ?ler1n ?ltr0n ?samples_pos //.
Qed.
(** I(x*x, x, 0, 1) is within 25/6 dx of 1/3, however the bounds are written. *)
Example integral_of_square : exists v,
  @outcome NX En (AInt SQ X (AScalar (Fin 0 : @T NX)) (AScalar (Fin 1 : @T NX))) ctx0 (Ok [:: sca L v]) /\
  @outcome NX En (AInt SQ X (AScalar (Fin 1 : @T NX)) (AScalar (Fin 0 : @T NX))) ctx0 (Ok [:: sca L v]) /\
  `|v - 3%:R^-1| <= 5%:R / 2%:R * (5%:R / 3%:R) / samples%:R.
Proof.
  have Hs : strip 0 1 = samples%:R^-1 :> F by rewrite /strip subr0 mul1r.
  have [v [V1 [V2 V3]]] := @c55_integral En F L SQ (AScalar (Fin 0 : @T NX)) (AScalar (Fin 1 : @T NX)) X 0 1 ctx0
    (fun s => s ^+ 2) (fun s => s ^+ 3 / 3%:R) (5%:R / 3%:R) ltr01 (NoDup_nil _) (num_outcome _) (num_outcome _)
    (fun s _ => sq_outcome s) (fun s t Hs' Ht' => cube (widen Hs') (widen Ht')).
  exists v. split=> //. split=> //. by move: V3; rewrite Hs subr0 mulr1 expr1n expr0n /= mul0r subr0 mul1r.
Qed.
(** D(x*x, x, 3) is within h of 6 *)
Example derivative_of_square : exists v,
  @outcome NX En (ADer SQ X (AScalar (Fin 3%:R : @T NX))) ctx0 (Ok [:: sca L v]) /\ `|v - (3%:R + 3%:R)| <= 10%:R ^- prec.
Proof.
  have [||v [V1 V2]] := @c55_derivative En F L SQ (AScalar (Fin 3%:R : @T NX)) X 3%:R (3%:R + 3%:R) 1 ctx0 (fun s => s ^+ 2)
    (num_outcome _) (sq_outcome _).
  - exact: sq_outcome.
  - set h := 10%:R ^- prec. rewrite mul1r !expr2 (square_step (F_ring F)). by rewrite ger0_norm -?expr2 ?sqr_ge0.
  - exists v. by rewrite -[X in _ <= X]mul1r.
Qed.
(** D(2*(x*x) + 5*x, x, 3) is 2 D(x*x, x, 3) + 5 D(x, x, 3) *)
Example derivative_of_sum : exists u v,
  @outcome NX En (ADer SQ X (AScalar (Fin 3%:R : @T NX))) ctx0 (Ok [:: sca L u]) /\
  @outcome NX En (ADer (AVar X) X (AScalar (Fin 3%:R : @T NX))) ctx0 (Ok [:: sca L v]) /\
  @outcome NX En (ADer (combined 2%:R 5%:R SQ (AVar X)) X (AScalar (Fin 3%:R : @T NX))) ctx0 (Ok [:: sca L (2%:R * u + 5%:R * v)]).
Proof.
  apply: (@c56_derivative En F L SQ (AVar X) (AScalar (Fin 3%:R : @T NX)) X 3%:R 2%:R 5%:R ctx0 (fun s => s ^+ 2) (fun s => s)); [exact: num_outcome|exact: sq_outcome|].
  move=> t. exact: x_outcome.
Qed.
End Examples.
End Examples.
