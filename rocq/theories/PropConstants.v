(** * PropConstants: C79 - the names pi and e of a new context stand for the
    doubles nearest to the numbers pi and e.

    pi is bounded by the series of arctan (Machin's formula, from the standard
    library), e by the alternating series of exp(-1). *)
From Coq Require Import List Bool String Reals Machin Lra Lia QArith Qreals ZArith SpecFloat.
From Flocq Require Import Core.
From Verif Require Import Base F64 Num Types Maths Helpers Parser Eval SpecEval FloatFacts DecimalFloat PropEval PropNumber Toy.
Import ListNotations.
Local Open Scope string_scope.
Local Open Scope list_scope.
Local Open Scope R_scope.

(** Partial sums with rational terms. *)
Fixpoint qsum (f : nat -> Q) (n : nat) : Q := match n with O => f O | S k => Qred (qsum f k + f n)%Q end.
Lemma qsum_R (f : nat -> Q) (g : nat -> R) n : (forall i, Q2R (f i) = g i) -> Q2R (qsum f n) = sum_f_R0 g n.
Proof. intros H. induction n as [|n IH]; cbn [qsum sum_f_R0]; [apply H|]. rewrite (Qeq_eqR _ _ (Qred_correct _)), Q2R_plus, IH, H. reflexivity. Qed.
Definition pi_term (i : nat) : Q :=
  let k := Z.of_nat (2 * i + 1) in
  (if Nat.even i then 1 else -1) * (2 * (1 # (Z.to_pos (3 ^ k * k))) + (1 # (Z.to_pos (7 ^ k * k)))).
Lemma term_R b i : (0 < b)%Z -> Q2R (1 # Z.to_pos (b ^ Z.of_nat (2 * i + 1) * Z.of_nat (2 * i + 1))) = (/ IZR b) ^ (2 * i + 1) / INR (2 * i + 1).
Proof.
  intros Hb. unfold Q2R. cbn [Qnum Qden]. assert (0 < b ^ Z.of_nat (2 * i + 1))%Z by (apply Z.pow_pos_nonneg; lia).
  rewrite Z2Pos.id by nia. rewrite mult_IZR, <- INR_IZR_INZ, Rmult_1_l.
  rewrite <- pow_IZR, pow_inv, Rinv_mult. reflexivity.
Qed.
Lemma sign_R i : (-1) ^ i = if Nat.even i then 1 else -1.
Proof. induction i as [|i IH]; [reflexivity|]. rewrite Nat.even_succ, <- Nat.negb_even. rewrite <- tech_pow_Rmult. rewrite IH. destruct (Nat.even i); cbn; lra. Qed.
Lemma pi_term_R i : Q2R (pi_term i) = tg_alt PI_2_3_7_tg i.
Proof.
  unfold pi_term, tg_alt, PI_2_3_7_tg, Ratan_seq. rewrite Q2R_mult, Q2R_plus, Q2R_mult, !term_R by lia.
  replace (Q2R (if Nat.even i then 1 else -1)%Q) with ((-1) ^ i) by (rewrite sign_R; destruct (Nat.even i); unfold Q2R; cbn; lra).
  replace (Q2R 2) with 2 by (unfold Q2R; cbn; lra). reflexivity.
Qed.
Lemma pi_bounds : Q2R (4 * qsum pi_term 17) <= PI <= Q2R (4 * qsum pi_term 16).
Proof.
  pose proof (PI_2_3_7_ineq 8) as [H1 H2]. change (S (2 * 8)) with 17%nat in H1. change (2 * 8)%nat with 16%nat in H2.
  rewrite <- (qsum_R _ _ _ pi_term_R) in H1. rewrite <- (qsum_R _ _ _ pi_term_R) in H2. rewrite !Q2R_mult. replace (Q2R 4) with 4 by (unfold Q2R; cbn; lra). lra.
Qed.
Fixpoint pfact (n : nat) : positive := match n with O => 1%positive | S k => (Pos.of_nat n * pfact k)%positive end.
Lemma pfact_R n : IZR (Z.pos (pfact n)) = INR (fact n).
Proof. induction n as [|n IH]; [reflexivity|]. cbn [pfact]. rewrite Pos2Z.inj_mul, mult_IZR, IH, fact_simpl, mult_INR. f_equal. rewrite INR_IZR_INZ. f_equal. lia. Qed.
Definition e_term (i : nat) : Q := (if Nat.even i then 1 else -1) * (1 # pfact i).
Lemma exp_m1_bounds N : sum_f_R0 (tg_alt (fun i => / INR (fact i))) (S (2 * N)) <= exp (-1) <= sum_f_R0 (tg_alt (fun i => / INR (fact i))) (2 * N).
Proof.
  apply alternated_series_ineq.
  - intros n. apply Rinv_le_contravar; [apply lt_0_INR, lt_O_fact|]. apply le_INR. cbn [fact]. nia.
  - intros eps Heps. destruct (archimed (/ eps)) as [Ha _]. exists (Z.to_nat (up (/ eps))). intros n Hn.
    unfold R_dist. rewrite Rminus_0_r. assert (0 < INR (fact n)) by apply lt_0_INR, lt_O_fact.
    rewrite Rabs_pos_eq by (left; now apply Rinv_0_lt_compat). rewrite <- (Rinv_inv eps). apply Rinv_lt_contravar.
    + apply Rmult_lt_0_compat; [now apply Rinv_0_lt_compat|assumption].
    + assert (0 < / eps) by (apply Rinv_0_lt_compat; lra). assert (0 < IZR (up (/eps))) by lra. apply lt_IZR in H1.
      assert (INR n <= INR (fact n)). { apply le_INR. clear. induction n; [cbn; lia|]. cbn [fact]. pose proof (lt_O_fact n). nia. }
      apply le_INR in Hn. rewrite INR_IZR_INZ, Z2Nat.id in Hn by lia. lra.
  - intros eps Heps. destruct (E1_cvg (-1) eps Heps) as [M HM]. exists M. intros n Hn. specialize (HM n Hn). unfold E1 in HM.
    replace (sum_f_R0 (tg_alt (fun i : nat => / INR (fact i))) n) with (sum_f_R0 (fun k : nat => / INR (fact k) * (-1) ^ k) n); [exact HM|].
    apply sum_eq. intros. unfold tg_alt. ring.
Qed.
Lemma e_term_R i : Q2R (e_term i) = tg_alt (fun i => / INR (fact i)) i.
Proof.
  unfold e_term, tg_alt. rewrite Q2R_mult. f_equal.
  - rewrite sign_R; destruct (Nat.even i); unfold Q2R; cbn; lra.
  - unfold Q2R. cbn [Qnum Qden]. rewrite pfact_R. ring.
Qed.
Lemma exp_bounds : Q2R (qsum e_term 21) <= exp (-1) <= Q2R (qsum e_term 20).
Proof. rewrite (qsum_R _ _ 21 e_term_R), (qsum_R _ _ 20 e_term_R). exact (exp_m1_bounds 10). Qed.

Local Notation fexp64 := (SpecFloat.fexp prec64 emax64).
(** A double between 2 and 4 closer to [v] than half the spacing of the doubles
    there is the double nearest to [v]. *)
Lemma nearest_between_2_4 (m : positive) v : (2 ^ 52 < Z.pos m < 2 ^ 53)%Z -> Rabs (IZR (Z.pos m) * bpow radix2 (-51) - v) < bpow radix2 (-52) ->
  nearest_double v (S754_finite false m (-51)).
Proof.
  intros Hm Hv. set (x := S754_finite false m (-51)).
  assert (V : fvalid x = true).
  { unfold fvalid, x, valid_binary, bounded. apply andb_true_intro. split; [|reflexivity]. apply Zeq_is_eq_bool. unfold fexp, SpecFloat.emin.
    rewrite Digits.Zpos_digits2_pos. assert (E : Digits.Zdigits radix2 (Z.pos m) = 53%Z). { apply Digits.Zdigits_unique. change (Z.pow radix2 (53-1)) with (2^52)%Z. change (Z.pow radix2 53) with (2^53)%Z. cbn [Z.abs]. lia. }
    rewrite E. reflexivity. }
  assert (Ex : fR x = IZR (Z.pos m) * bpow radix2 (-51)) by reflexivity.
  assert (P52 : bpow radix2 52 < IZR (Z.pos m)) by (rewrite <- (IZR_Zpower radix2) by lia; apply IZR_lt; exact (proj1 Hm)).
  assert (P53 : IZR (Z.pos m) < bpow radix2 53) by (rewrite <- (IZR_Zpower radix2) by lia; apply IZR_lt; exact (proj2 Hm)).
  assert (G : bpow radix2 (-51) = 2 * bpow radix2 (-52)) by (change (-51)%Z with (1 + -52)%Z; rewrite bpow_plus; reflexivity).
  pose proof (bpow_gt_0 radix2 (-52)) as P0.
  assert (B2 : 2 < fR x). { rewrite Ex. replace 2 with (bpow radix2 52 * bpow radix2 (-51)) by (rewrite <- bpow_plus; reflexivity). apply Rmult_lt_compat_r; [lra|exact P52]. }
  assert (B4 : fR x < 4). { rewrite Ex. replace 4 with (bpow radix2 53 * bpow radix2 (-51)) by (rewrite <- bpow_plus; reflexivity). apply Rmult_lt_compat_r; [lra|exact P53]. }
  assert (M : mag radix2 (fR x) = 2%Z :> Z).
  { apply mag_unique. rewrite Rabs_pos_eq by lra. change (bpow radix2 (2 - 1)) with 2. change (bpow radix2 2) with 4. lra. }
  assert (U : ulp radix2 fexp64 (fR x) = bpow radix2 (-51)).
  { rewrite ulp_neq_0 by lra. unfold cexp. rewrite M. reflexivity. }
  pose proof (fR_format x V) as F.
  assert (R : RN v = fR x).
  { apply Rle_antisym.
    - unfold RN. apply round_N_le_midp; [typeclasses eauto|exact F|]. rewrite succ_eq_pos by lra. rewrite U. apply Rabs_lt_inv in Hv. rewrite <- Ex in Hv. lra.
    - unfold RN. apply round_N_ge_midp; [typeclasses eauto|exact F|]. rewrite pred_eq_pos by lra. unfold pred_pos. rewrite M. change (bpow radix2 (2 - 1)) with 2.
      rewrite Req_bool_false by lra. rewrite U. apply Rabs_lt_inv in Hv. rewrite <- Ex in Hv. lra. }
  split; [exact V|]. destruct (Rlt_dec (Rabs v) overflow_threshold) as [L|L].
  - split; [reflexivity|]. now apply nearest_of_RN.
  - exfalso. apply L. apply Rabs_lt_inv in Hv. rewrite <- Ex in Hv.
    assert (bpow radix2 (-52) < 1) by (change 1 with (bpow radix2 0); apply bpow_lt; lia).
    apply Rlt_trans with 5; [apply Rabs_def1; lra|]. unfold overflow_threshold. apply IZR_lt. reflexivity.
Qed.
Lemma Q2R_pow m k : Q2R (m # 2 ^ k) = IZR m * bpow radix2 (Z.neg k).
Proof. unfold Q2R. cbn [Qnum Qden]. rewrite Pos2Z.inj_pow. reflexivity. Qed.
Lemma near_of_bounds (m : positive) (lo hi : Q) v : Q2R lo <= v <= Q2R hi ->
  (Qlt ((2 * Z.pos m - 1) # 2 ^ 52) lo) -> (Qlt hi ((2 * Z.pos m + 1) # 2 ^ 52)) ->
  Rabs (IZR (Z.pos m) * bpow radix2 (-51) - v) < bpow radix2 (-52).
Proof.
  intros Hb H1 H2. apply Qlt_Rlt in H1, H2. rewrite Q2R_pow in H1, H2. rewrite minus_IZR, mult_IZR in H1. rewrite plus_IZR, mult_IZR in H2.
  assert (G : bpow radix2 (-51) = 2 * bpow radix2 (-52)) by (change (-51)%Z with (1 + -52)%Z; rewrite bpow_plus; reflexivity). rewrite G.
  apply Rabs_def1; lra.
Qed.
Lemma pi64_near : Rabs (fR pi64 - PI) < bpow radix2 (-52).
Proof. apply (near_of_bounds 7074237752028440 _ _ _ pi_bounds); vm_compute; reflexivity. Qed.
Lemma q_pos (q : Q) : (0 < q)%Q -> ~ (q == 0)%Q.
Proof. intros H E. rewrite E in H. now apply Qlt_irrefl in H. Qed.
Lemma exp_1_bounds : Q2R (/ qsum e_term 20) <= exp 1 <= Q2R (/ qsum e_term 21).
Proof.
  pose proof exp_bounds as [H1 H2]. pose proof (exp_pos (-1)) as P. assert (Hq : (0 < qsum e_term 21)%Q) by (vm_compute; reflexivity).
  assert (Hq' : (0 < qsum e_term 20)%Q) by (vm_compute; reflexivity).
  rewrite !Q2R_inv by (apply q_pos; assumption).
  apply Qlt_Rlt in Hq, Hq'. replace (Q2R 0) with 0 in * by (unfold Q2R; cbn; lra).
  replace (exp 1) with (/ exp (-1)) by (rewrite <- exp_Ropp; f_equal; ring). split; apply Rinv_le_contravar; lra.
Qed.
Lemma e64_near : Rabs (fR e64 - exp 1) < bpow radix2 (-52).
Proof. apply (near_of_bounds 6121026514868073 _ _ _ exp_1_bounds); vm_compute; reflexivity. Qed.

Lemma bpow_52 : bpow radix2 (-52) = / 2 ^ 52.
Proof. change (-52)%Z with (Z.opp 52). rewrite bpow_opp, <- (IZR_Zpower radix2 52) by lia. rewrite (pow_IZR 2 52). reflexivity. Qed.

Section Constants.
Context {ET : Env}.
Variable lm : Libm.
Local Instance NF : Num := F64 lm.

(** Typing pi into a new session gives one number, the double nearest to pi. *)
Theorem c79_pi : exists x : f64, quick_outcome (lit "pi") (@ctx_default NF) (Ok [@Scalar NF x]) /\
  nearest_double PI x /\ Rabs (fR x - PI) < / 2 ^ 52.
Proof.
  exists pi64. split; [|split].
  - apply c40_quick_eval. exists (AVar (lit "pi")). split; [reflexivity|]. exact (c15_variable (@ctx_default NF) (lit "pi") (mkVar (lit "pi") [@Scalar NF pi64]) eq_refl).
  - apply nearest_between_2_4; [split; reflexivity|]. exact pi64_near.
  - rewrite <- bpow_52. exact pi64_near.
Qed.
Theorem c79_e : exists x : f64, quick_outcome (lit "e") (@ctx_default NF) (Ok [@Scalar NF x]) /\
  nearest_double (exp 1) x /\ Rabs (fR x - exp 1) < / 2 ^ 52.
Proof.
  exists e64. split; [|split].
  - apply c40_quick_eval. exists (AVar (lit "e")). split; [reflexivity|]. exact (c15_variable (@ctx_default NF) (lit "e") (mkVar (lit "e") [@Scalar NF e64]) eq_refl).
  - apply nearest_between_2_4; [split; reflexivity|]. exact e64_near.
  - rewrite <- bpow_52. exact e64_near.
Qed.
(** No other name has a value there, and there are no functions. *)
Theorem c79_nothing_else s n : n <> lit "pi" -> n <> lit "e" -> parse s = Ok (AVar n) ->
  quick_outcome s (@ctx_default NF) (Err (QEvalError (NoVariable n))).
Proof.
  intros H1 H2 Hp. apply c40_quick_eval. exists (AVar n). split; [exact Hp|]. apply c15_unknown_variable.
  intros v [<-|[<-|[]]] E; [apply H1|apply H2]; symmetry; exact E.
Qed.
End Constants.
