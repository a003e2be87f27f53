(** * PropTrueRoot: C87 - next to an answer of [eq] there is a root of the real
    equation, if the graphs of the two sides cross steeply enough. *)
From Coq Require Import List Bool ZArith Arith Reals Lra Lia SpecFloat String.
From Verif Require Import Base F64 Num Types Maths Parser Eval SpecEval FloatFacts CalcSpec CalcProofs SolveSpec
  EvalProofs PropNumber GrammarSpec ShapeSpec PropResults EstimateSpec SlopeSpec PropEstimate PropSlope PropIntegers Toy PropParser.
From Flocq Require Import Core.Defs IEEE754.BinarySingleNaN.
Import ListNotations.
Local Open Scope list_scope.

(** ** Real functions *)
Section Real.
Local Open Scope R_scope.
Variables F F' : R -> R.
Hypothesis HF : forall t, derivable_pt_lim F t (F' t).
Lemma F_continuous : continuity F.
Proof. intros t. apply derivable_continuous_pt. exists (F' t). apply HF. Qed.
(** A root within [d] of [a], if the slope is at least [m] there and |F(a)| <=
    m*d. *)
Lemma near_root a d m : 0 < m -> 0 <= d -> Rabs (F a) <= m * d ->
  (forall s, Rabs (s - a) <= d -> m <= F' s) ->
  exists z, F z = 0 /\ Rabs (z - a) <= d.
Proof.
  intros Hm Hd Ha Hs. destruct (Req_dec d 0) as [->|Hd0].
  - rewrite Rmult_0_r in Ha. exists a. split.
    + destruct (Req_dec (F a) 0); [assumption|]. pose proof (Rabs_pos_lt _ H). lra.
    + rewrite Rminus_diag_eq, Rabs_R0; lra.
  - assert (P : 0 < d) by lra.
    assert (B : - (m * d) <= F a <= m * d) by (revert Ha; unfold Rabs; destruct (Rcase_abs (F a)); lra).
    destruct (MVT_cor2 F F' a (a + d)) as (u & Eu & Hu); [lra|intros; apply HF|].
    destruct (MVT_cor2 F F' (a - d) a) as (v & Ev & Hv); [lra|intros; apply HF|].
    assert (Su : m <= F' u) by (apply Hs; unfold Rabs; destruct (Rcase_abs (u - a)); lra).
    assert (Sv : m <= F' v) by (apply Hs; unfold Rabs; destruct (Rcase_abs (v - a)); lra).
    assert (Mu : m * d <= F' u * d) by (apply Rmult_le_compat_r; lra).
    assert (Mv : m * d <= F' v * d) by (apply Rmult_le_compat_r; lra).
    replace (a + d - a) with d in Eu by ring. replace (a - (a - d)) with d in Ev by ring.
    destruct (IVT_cor F (a - d) (a + d) F_continuous) as (z & [Hz1 Hz2] & Ez); [lra| |].
    { assert (F (a - d) <= 0) by lra. assert (0 <= F (a + d)) by lra. 
      replace 0 with (0 * F (a + d)) by ring. apply Rmult_le_compat_r; assumption. }
    exists z. split; [exact Ez|]. unfold Rabs; destruct (Rcase_abs (z - a)); lra.
Qed.
(** There is only one. *)
Lemma one_root a d m z z' : 0 < m -> (forall s, Rabs (s - a) <= d -> m <= F' s) ->
  F z = 0 -> Rabs (z - a) <= d -> F z' = 0 -> Rabs (z' - a) <= d -> z' = z.
Proof.
  intros Hm Hs.
  assert (G : forall z z', F z = 0 -> Rabs (z - a) <= d -> F z' = 0 -> Rabs (z' - a) <= d -> ~ z < z').
  { intros y y' Hy Dy Hy' Dy' L. destruct (MVT_cor2 F F' y y' L) as (u & Eu & Hu); [intros; apply HF|].
    assert (Su : m <= F' u).
    { apply Hs. revert Dy Dy'. unfold Rabs. destruct (Rcase_abs (u - a)), (Rcase_abs (y - a)), (Rcase_abs (y' - a)); lra. }
    rewrite Hy, Hy' in Eu. assert (0 < F' u * (y' - y)) by (apply Rmult_lt_0_compat; lra). lra. }
  intros H1 H2 H3 H4. destruct (Rtotal_order z z') as [L|[E|L]]; [exfalso; exact (G z z' H1 H2 H3 H4 L)|now symmetry|exfalso; exact (G z' z H3 H4 H1 H2 L)].
Qed.
End Real.

Section Results.
Variable lm : Libm.
Local Instance NF : Num := F64 lm.
Context {En : Env}.
Notation graph c x e := (graph lm c x e).

(** The derivative of a polynomial expression, by the usual rules. *)
Fixpoint slope (rho : str -> R) (x : str) (a : AST NF) : R :=
  match a with
  | AVar n => if str_eqb x n then 1%R else 0%R
  | AOp OAdd a b => (slope rho x a + slope rho x b)%R
  | AOp OSub a b => (slope rho x a - slope rho x b)%R
  | AOp ONeg _ b => (- slope rho x b)%R
  | AOp OMult a b | AOp OHiddenMult a b => (slope rho x a * over_reals lm rho b + over_reals lm rho a * slope rho x b)%R
  | AOp ODiv a b => (slope rho x a / over_reals lm rho b)%R
  | AOp OParenths a _ => slope rho x a
  | _ => 0%R
  end.
Lemma limit_ext f g t l : (forall s, f s = g s) -> derivable_pt_lim f t l -> derivable_pt_lim g t l.
Proof. intros E H eps He. destruct (H eps He) as [d Hd]. exists d. intros h. rewrite <- !E. apply Hd. Qed.
Theorem c87_derivative (c : Ctx NF) x e s : polynomial lm c x e ->
  derivable_pt_lim (graph c x e) s (slope (with_value (valuation lm c) x s) x e).
Proof.
  intros H. induction H as [|a y Hk|a b _ Ha _ Hb|a b _ Ha _ Hb|z b _ Hb|a b _ Ha _ Hb|a b _ Ha _ Hb|a b y _ Ha Hk Hy|a z _ Ha]; unfold PropSlope.graph in *; cbn [slope].
  - rewrite (proj2 (str_eqb_eq x x) eq_refl). apply (limit_ext (fun t => t)); [|apply derivable_pt_lim_id].
    intros t. cbn [over_reals]. unfold with_value. now rewrite (proj2 (str_eqb_eq x x) eq_refl).
  - assert (E : slope (with_value (valuation lm c) x s) x a = 0%R).
    { destruct Hk as [z _|n v z Hn _ _ _]; [reflexivity|]. cbn [slope]. destruct (str_eqb x n) eqn:B; [|reflexivity]. apply str_eqb_eq in B. exfalso. apply Hn. now left. }
    rewrite E. apply (limit_ext (fun _ => fR y)); [|apply derivable_pt_lim_const]. intros t. symmetry. apply (known_value lm c x a y t Hk).
  - exact (derivable_pt_lim_plus _ _ _ _ _ Ha Hb).
  - exact (derivable_pt_lim_minus _ _ _ _ _ Ha Hb).
  - exact (derivable_pt_lim_opp _ _ _ Hb).
  - exact (derivable_pt_lim_mult _ _ _ _ _ Ha Hb).
  - exact (derivable_pt_lim_mult _ _ _ _ _ Ha Hb).
  - rewrite (proj1 (known_value lm c x b y s Hk)). unfold Rdiv. rewrite Rmult_comm.
    apply (limit_ext (fun t => / fR y * over_reals lm (with_value (valuation lm c) x t) a)%R); [|exact (derivable_pt_lim_scal _ _ _ _ Ha)].
    intros t. cbn [over_reals]. rewrite (proj1 (known_value lm c x b y t Hk)). unfold Rdiv. ring.
  - exact Ha.
Qed.

(** The real function whose roots are the solutions of [l = r]. *)
Definition gap (c : Ctx NF) (x : str) (l r : AST NF) (t : R) : R := (graph c x l t - graph c x r t)%R.
Definition gap_slope (c : Ctx NF) (x : str) (l r : AST NF) (t : R) : R :=
  (slope (with_value (valuation lm c) x t) x l - slope (with_value (valuation lm c) x t) x r)%R.
Lemma gap_derivative c x l r t : polynomial lm c x l -> polynomial lm c x r -> derivable_pt_lim (gap c x l r) t (gap_slope c x l r t).
Proof. intros Hl Hr. exact (derivable_pt_lim_minus _ _ _ _ _ (c87_derivative c x l t Hl) (c87_derivative c x r t Hr)). Qed.

(** Every answer [a] of [eq(l = r, x)], for polynomial expressions: with [D] the
    bound of C76 for the difference of the sides at [a], there is exactly one real
    root within [D/m] of [a], whenever the graphs cross there with a slope of at
    least [m] (upwards or downwards). *)
Theorem c87_true_root (c : Ctx NF) t l r x vs v : returns_doubles lm ->
  session lm c -> parse t = Ok (AEq [(l, r)] [x]) -> names_unknowns lm (AEq [(l, r)] [x]) ->
  polynomial lm c x l -> polynomial lm c x r ->
  outcome (AEq [(l, r)] [x]) c (Ok vs) -> In v vs ->
  exists (a : f64) el er, v = @Scalar NF a /\ double a /\
    measured lm (set_num c x a) l el /\ measured lm (set_num c x a) r er /\
    let D := ((1 + / 2 ^ 50) / 10 ^ Z.to_nat PREC + error_bound (est_add el (est_neg er)))%R in
    (Rabs (gap c x l r (fR a)) <= D)%R /\
    forall m, (0 < m)%R ->
      (forall s g, (Rabs (s - fR a) <= D / m)%R -> derivable_pt_lim (gap c x l r) s g -> (m <= g)%R) \/
      (forall s g, (Rabs (s - fR a) <= D / m)%R -> derivable_pt_lim (gap c x l r) s g -> (g <= - m)%R) ->
      exists z, (gap c x l r z = 0 /\ Rabs (z - fR a) <= D / m /\
        forall z', gap c x l r z' = 0 -> Rabs (z' - fR a) <= D / m -> z' = z)%R.
Proof.
  intros Hlm Hs Hp Hn Hl Hr Ho Hv.
  destruct (c76_over_reals lm c t [(l, r)] [x] vs v Hlm Hs Hp Hn) as (xs & E & Hlen & Hd & H); [|exact Ho|exact Hv|].
  { intros l' r' [Hin|[]]. injection Hin as <- <-. split; now apply polynomial_arithmetic. }
  destruct xs as [|a [|? ?]]; try discriminate. destruct (H l r (or_introl eq_refl)) as (el & er & Ml & Mr & B).
  exists a, el, er. split; [exact E|]. split; [now inversion Hd|]. split; [exact Ml|]. split; [exact Mr|]. cbn zeta.
  change (set_nums c [x] [a]) with (set_num c x a) in B.
  set (D := ((1 + / 2 ^ 50) / 10 ^ Z.to_nat PREC + error_bound (est_add el (est_neg er)))%R) in *.
  assert (B' : (Rabs (gap c x l r (fR a)) <= D)%R).
  { unfold gap, PropSlope.graph. rewrite <- (over_reals_ext lm _ _ l (valuation_set lm c x a)), <- (over_reals_ext lm _ _ r (valuation_set lm c x a)). exact B. }
  split; [exact B'|]. clearbody D. intros m Hm Hsl.
  assert (HD : (0 <= D)%R) by (eapply Rle_trans; [apply Rabs_pos|exact B']).
  assert (Hd0 : (0 <= D / m)%R) by (apply Rmult_le_pos; [exact HD|left; now apply Rinv_0_lt_compat]).
  assert (Em : (m * (D / m) = D)%R) by (field; lra).
  pose proof (fun t => gap_derivative c x l r t Hl Hr) as HF.
  destruct Hsl as [Hsl|Hsl].
  - destruct (near_root _ _ HF (fR a) (D / m) m Hm Hd0) as (z & Hz & Dz); [now rewrite Em|intros s Hs'; now apply (Hsl s)|].
    exists z. split; [exact Hz|]. split; [exact Dz|]. intros z' Hz' Dz'.
    apply (one_root _ _ HF (fR a) (D / m) m z z' Hm); auto. intros s Hs'. now apply (Hsl s).
  - set (N t := (- gap c x l r t)%R). assert (HN : forall t, derivable_pt_lim N t (- gap_slope c x l r t)%R) by (intros u; exact (derivable_pt_lim_opp _ _ _ (HF u))).
    assert (Hsl' : forall s, (Rabs (s - fR a) <= D / m -> m <= - gap_slope c x l r s)%R).
    { intros s Hs'. pose proof (Hsl s _ Hs' (HF s)). lra. }
    destruct (near_root _ _ HN (fR a) (D / m) m Hm Hd0) as (z & Hz & Dz); [unfold N; now rewrite Rabs_Ropp, Em|exact Hsl'|].
    exists z. split; [unfold N in Hz; lra|]. split; [exact Dz|]. intros z' Hz' Dz'.
    apply (one_root _ _ HN (fR a) (D / m) m z z' Hm); auto. unfold N. lra.
Qed.
End Results.

Module Examples.
Local Existing Instance NT.
Local Existing Instance ET.
Definition X : str := lit "x".
Definition ctx0 : Ctx NT := mkCtx [] [].
Definition k (z : Z) : AST NT := AScalar (num z).
(** x*3 = 6: there is an answer, and every answer is as close as C87 says to the
    root 2 of the real equation. *)
Definition side : AST NT := AOp OMult (AVar X) (k 3).
Example text : @parse NT ET (lit "eq(x*3=6,x)") = Ok (AEq [(side, k 6)] [X]).
Proof. reflexivity. Qed.
Lemma side_poly : polynomial toy ctx0 X side.
Proof. apply P_mult; [apply P_x|]. apply (P_known _ _ _ _ (num 3)). constructor. split; reflexivity. Qed.
Lemma six_poly : polynomial toy ctx0 X (k 6).
Proof. apply (P_known _ _ _ _ (num 6)). constructor. split; reflexivity. Qed.
Lemma three : fR (num 3) = 3%R.
Proof. unfold fR, num. replace (@nof_Z NT 3) with (S754_finite false 6755399441055744 (-51)) by (vm_compute; reflexivity). unfold SF2R. unfold Defs.F2R. cbn. lra. Qed.
Lemma unknowns : names_unknowns toy (AEq [(side, k 6)] [X]).
Proof.
  intros eqs sv Hn. inversion Hn as [|x ? Hx H1]; subst; [discriminate|]. exfalso. clear Hn.
  repeat match goal with
  | H : _ \/ _ |- _ => destruct H as [<-|H]
  | H : False |- _ => destruct H
  | H : In _ (ParserSpec.children _) |- _ => cbn in H
  | H : ParserSpec.node _ _ |- _ => inversion H; clear H; subst
  end.
Qed.
Lemma slope3 t g : derivable_pt_lim (gap toy ctx0 X side (k 6)) t g -> g = 3%R.
Proof.
  intros H. rewrite (uniqueness_limite _ _ _ _ H (gap_derivative toy ctx0 X side (k 6) t side_poly six_poly)).
  unfold gap_slope, side, k. cbn [slope over_reals]. replace (str_eqb X X) with true by reflexivity. rewrite three. lra.
Qed.
Example c87_case : exists vs, outcome (AEq [(side, k 6)] [X]) ctx0 (Ok vs) /\ vs <> [] /\
  forall v, In v vs -> exists (a : f64) el er z, v = @Scalar NT a /\ (gap toy ctx0 X side (k 6) z = 0)%R /\
    measured toy (set_num ctx0 X a) side el /\ measured toy (set_num ctx0 X a) (k 6) er /\
    (Rabs (z - fR a) <= ((1 + / 2 ^ 50) / 10 ^ Z.to_nat PREC + error_bound (est_add el (est_neg er))) / 3)%R.
Proof.
  destruct (PropIntegers.c88_solvable toy [(side, k 6)] X ctx0 2) as (vs & Hv & Hne).
  - intros (n & v & _ & [] & _).
  - intros xs Hx e [<-|[]]. destruct xs as [|a [|? ?]]; try discriminate. eexists. exists []. apply (outcome_intro 5); [reflexivity|discriminate].
  - exists (side, k 6), [], n0, []. split; [reflexivity|]. split; [|split; [vm_compute; reflexivity|split; [constructor|now left]]].
    exists []. apply (outcome_intro 5); [apply res_same_ok; vm_compute; reflexivity|discriminate].
  - lia.
  - exists vs. split; [exact Hv|]. split; [exact Hne|]. intros v Hin.
    destruct (c87_true_root toy ctx0 _ side (k 6) X vs v PropEstimate.Examples.toy_doubles (Start_empty toy) text unknowns side_poly six_poly Hv Hin)
      as (a & el & er & E & _ & M1 & M2 & _ & H).
    destruct (H 3%R) as (z & Hz & Dz & _); [lra|left; intros s g _ Hg; rewrite (slope3 s g Hg); lra|].
    exists a, el, er, z. auto.
Qed.
End Examples.
