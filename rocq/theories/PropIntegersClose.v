(** * PropIntegersClose: C88, the distance of the answer found to the whole number. *)
From Coq Require Import List ZArith Bool Arith Lia Reals Lra SpecFloat String.
From Flocq Require Import Core IEEE754.BinarySingleNaN.
From Verif Require Import Base F64 Num Types Maths Parser Eval SpecEval FloatFacts PrintFloat PropNumber CalcSpec CalcProofs SolveSpec SearchSpec
  PropSolve GrammarSpec ShapeSpec PropResults PropRoundDec PropRounding PropIntegers EstimateSpec PropEstimate EvalProofs Toy Toy PropParser.
Import ListNotations.
Local Open Scope Z_scope.
Local Open Scope list_scope.

Section Binary64.
Variable lm : Libm.
Local Instance NF : Num := F64 lm.
Context {En : Env}.
Notation equation := (AST NF * AST NF)%type.

Lemma whole_spec j : Z.abs j < 2 ^ 53 -> fvalid (f_of_Z j) = true /\ fis_finite (f_of_Z j) = true /\ fR (f_of_Z j) = IZR j.
Proof.
  intros H. destruct (Z.eq_dec j 0) as [->|N]; [split; [reflexivity|]; split; [reflexivity|cbn; lra]|].
  destruct (normalize_exact j false H N) as (A & B & C & _). split; [exact A|]. split; [exact B|exact C].
Qed.
Lemma feqb_finite x y : feqb x y = true -> fis_finite y = true -> fis_finite x = true.
Proof. unfold feqb, SFeqb. destruct x as [s|[]| |s m e], y as [s'|[]| |s' m' e']; cbn; congruence. Qed.

(** [j] rounds to itself. *)
Lemma whole_fixed j p : -1000 <= j < 1000 -> 0 <= p <= 11 -> @round_num NF p (f_of_Z j) = f_of_Z j.
Proof.
  intros Hj Hp. destruct (whole_spec j) as (V & F & E); [lia|].
  assert (T : (1 <= 10 ^ p <= 10 ^ 11)). { split; [assert (0 < 10 ^ p) by (apply Z.pow_pos_nonneg; lia); lia|apply Z.pow_le_mono_r; lia]. }
  apply (fixed_RN lm p (f_of_Z j) (j * 10 ^ p)); [split; [exact V|exact F]|lia| |].
  - rewrite Z.abs_mul. assert (Z.abs (10 ^ p) <= 10 ^ 11) by lia. assert (Z.abs j <= 1000) by lia. nia.
  - rewrite mult_IZR. replace (IZR j * IZR (10 ^ p) / IZR (10 ^ p))%R with (IZR j) by (field; apply not_0_IZR; lia).
    rewrite E. symmetry. apply RN_IZR. lia.
Qed.

(** A double that rounds to [j] is within 0.6 units of the last decimal kept. *)
Lemma rounds_near j a p : -1000 <= j < 1000 -> 0 <= p <= 11 -> fvalid a = true -> fis_finite a = true ->
  feqb (f_of_Z j) (@round_num NF p a) = true -> (Rabs (fR a - IZR j) <= 6 / 10 / IZR (10 ^ p))%R.
Proof.
  intros Hj Hp Va Fa H. destruct (whole_spec j) as (V & F & E); [lia|]. destruct (whole_spec 2000) as (V2 & F2 & E2); [lia|]. destruct (whole_spec (-2000)) as (V3 & F3 & E3); [lia|].
  assert (W : forall k, Z.abs k = 2000 -> @round_num NF p (f_of_Z k) = f_of_Z k).
  { intros k Hk. assert (T : (1 <= 10 ^ p <= 10 ^ 11)). { split; [assert (0 < 10 ^ p) by (apply Z.pow_pos_nonneg; lia); lia|apply Z.pow_le_mono_r; lia]. }
    destruct (whole_spec k) as (Vk & Fk & Ek); [lia|]. apply (fixed_RN lm p (f_of_Z k) (k * 10 ^ p)); [split; [exact Vk|exact Fk]|lia| |].
    - rewrite Z.abs_mul, Hk. assert (Z.abs (10 ^ p) <= 10 ^ 11) by lia. nia.
    - rewrite mult_IZR. replace (IZR k * IZR (10 ^ p) / IZR (10 ^ p))%R with (IZR k) by (field; apply not_0_IZR; lia).
      rewrite Ek. symmetry. apply RN_IZR. lia. }
  set (r := @round_num NF p a) in *. rewrite feqb_sym in H. pose proof (feqb_finite _ _ H F) as Fr.
  assert (Vr : fvalid r = true).
  { destruct (pow10_spec lm p ltac:(lia)) as (VP & FP & SP & EP). pose proof (PropRoundDec.pow10_pos p ltac:(lia)) as PT.
    assert (P1 : (0 < fR (@pow10 NF p))%R) by (refine (Rlt_le_trans _ _ _ _ (Req_le _ _ (eq_sym EP))); lra).
    assert (K : keeps_order (fun x => fdiv (fround (fmul x (@pow10 NF p))) (@pow10 NF p))).
    { apply (keeps_comp (fun x => fround (fmul x (@pow10 NF p))) (fun x => fdiv x (@pow10 NF p))); [|now apply keeps_div].
      apply (keeps_comp (fun x => fmul x (@pow10 NF p)) fround); [now apply keeps_mul|exact keeps_fround]. }
    destruct K as (K1 & _). destruct (K1 a Va) as [R _]; [now destruct a|exact R]. }
  apply feqb_spec in H; auto. rewrite E in H.
  assert (Bj : (-1000 <= IZR j <= 999)%R) by (split; apply IZR_le; lia).
  assert (B : (Rabs (fR a) <= 2000)%R).
  { apply Rabs_le. split; apply Rnot_lt_le; intros L.
    - pose proof (c84_monotone lm p a (f_of_Z (-2000)) r (f_of_Z (-2000)) ltac:(lia) Va V3) as M.
      assert (fltb (f_of_Z (-2000)) r = true) by (apply fltb_spec; auto; rewrite E3, H; lra).
      rewrite M in H0; [discriminate|apply fltb_spec; auto; rewrite E3; lra|reflexivity|exact (f_equal (@Scalar NF) (W (-2000) eq_refl))].
    - pose proof (c84_monotone lm p (f_of_Z 2000) a (f_of_Z 2000) r ltac:(lia) V2 Va) as M.
      assert (fltb r (f_of_Z 2000) = true) by (apply fltb_spec; auto; rewrite E2, H; lra).
      rewrite M in H0; [discriminate|apply fltb_spec; auto; rewrite E2; lra|exact (f_equal (@Scalar NF) (W 2000 eq_refl))|reflexivity]. }
  assert (T1 : (1 <= IZR (10 ^ p) <= IZR (10 ^ 11))%R). { split; apply IZR_le; [assert (0 < 10 ^ p) by (apply Z.pow_pos_nonneg; lia); lia|apply Z.pow_le_mono_r; lia]. }
  change (10 ^ 11) with 100000000000 in T1.
  pose proof (c84_error lm p a r (conj Va Fa) ltac:(lia)) as Er. rewrite H, Rabs_minus_sym in Er.
  eapply Rle_trans; [apply Er; [change (10 ^ 15 - 1) with 999999999999999|reflexivity]|].
  - apply Rle_trans with (2000 * 100000000000)%R; [apply Rmult_le_compat; try lra; apply Rabs_pos|lra].
  - set (T := IZR (10 ^ p)) in *. assert (U : (/ 2 ^ 53 <= / 9000000000000000)%R) by (apply Rinv_le_contravar; [lra|]; cbn; lra).
    assert (IT : (/ 100000000000 <= / T)%R) by (apply Rinv_le_contravar; lra).
    assert (P : (0 < / 2 ^ 53)%R) by (apply Rinv_0_lt_compat; apply pow_lt; lra).
    assert ((3 * / 2 ^ 53 * Rabs (fR a) <= 3 * / 9000000000000000 * 2000)%R) by (apply Rmult_le_compat; try lra; apply Rabs_pos).
    assert ((/ 2 ^ 53 * / T <= / 9000000000000000 * / T)%R) by (apply Rmult_le_compat_r; lra).
    unfold Rdiv. lra.
Qed.

(** With less than ten answers, one of them is this close to [j]. *)
Theorem c88_close (c : Ctx NF) t (eqs : list equation) x vs j : returns_doubles lm ->
  session lm c -> parse t = Ok (AEq eqs [x]) -> names_unknowns lm (AEq eqs [x]) ->
  outcome (AEq eqs [x]) c (Ok vs) -> eqs <> [] ->
  (forall e, In e eqs -> misses_by (set_num c x (nof_Z j)) e n0) -> -1000 <= j < 1000 -> (List.length vs < 10)%nat ->
  exists a : f64, In (@Scalar NF a) vs /\ double a /\ (Rabs (fR a - IZR j) <= 6 / 10 / IZR (10 ^ (PREC - 2)))%R.
Proof.
  intros Hlm Hs Hp Hn Ho Hne He Hj Hlen.
  destruct (c88_exact_integers lm eqs x c vs j Hne Ho He Hj Hlen) as (w & Hw & Hsame).
  pose proof (c65_results_are_doubles lm Hlm c t _ vs Hs Hp Hn Ho) as G. rewrite Forall_forall in G. destruct (G w Hw) as [_ Gf].
  destruct (c34_form lm eqs [x] c vs w Ho Hw) as [F1 _]. destruct (F1 eq_refl) as (a & -> & Fa).
  exists a. split; [exact Hw|]. split; [split; [exact Gf|exact Fa]|].
  assert (Hp' : 0 <= PREC - 2 <= 11) by (unfold PREC; destruct high_prec; lia).
  apply rounds_near; auto.
  destruct Hsame as [E|E].
  - assert (a = f_of_Z j) as -> by (apply (f_equal (fun v : Value NF => match v with @Scalar _ z => z | _ => a end)) in E; exact E).
    rewrite (whole_fixed j (PREC - 2)) by assumption. apply feqb_spec; try reflexivity; destruct (whole_spec j ltac:(lia)) as (V & F & _); auto.
  - unfold same_rounded in E. cbn in E. rewrite <- (whole_fixed j (PREC - 2)) by assumption. exact E.
Qed.
End Binary64.

Module Examples.
Local Existing Instance NT.
Local Existing Instance ET.
Import PropIntegers.Examples.
(** The text [eq(x*x=4,x)]: both solutions are met within 0.6 of the last decimal
    kept. *)
Example text : @parse NT ET (lit "eq(x*x=4,x)") = Ok (AEq [square] [X]).
Proof. reflexivity. Qed.
Lemma unknowns : names_unknowns toy (AEq [square] [X]).
Proof.
  intros eqs sv Hn. inversion Hn as [|x ? Hx H1]; subst; [discriminate|]. exfalso. clear Hn.
  repeat match goal with
  | H : _ \/ _ |- _ => destruct H as [<-|H]
  | H : False |- _ => destruct H
  | H : In _ (ParserSpec.children _) |- _ => cbn in H
  | H : ParserSpec.node _ _ |- _ => inversion H; clear H; subst
  end.
Qed.
Example c88_close_case : exists vs, outcome (AEq [square] [X]) ctx0 (Ok vs) /\
  forall j, j = 2 \/ j = -2 -> (List.length vs < 10)%nat ->
    exists a : f64, In (@Scalar NT a) vs /\ (Rabs (fR a - IZR j) <= 6 / 10 / IZR (10 ^ (PREC - 2)))%R.
Proof.
  destruct c88_case as (vs & Hv & _). exists vs. split; [exact Hv|]. intros j Hj Hl.
  destruct (c88_close toy ctx0 _ [square] X vs j PropEstimate.Examples.toy_doubles (Start_empty toy) text unknowns Hv) as (a & Ha & _ & Da); auto; [discriminate| |lia|exists a; auto].
  intros e [<-|[]]. exists []. apply (outcome_intro 5); [|discriminate]. destruct Hj as [-> | ->]; apply res_same_ok; vm_compute; reflexivity.
Qed.
End Examples.
