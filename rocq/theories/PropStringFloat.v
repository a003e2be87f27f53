(** * PropStringFloat: C54 for binary64 numbers. *)
From Coq Require Import List NArith ZArith Bool String Arith Lia SpecFloat Reals Lra.
From Flocq Require Import Core IEEE754.BinarySingleNaN.
From Verif Require Import Base BaseFacts F64 Num Types Maths Helpers Parser Eval Print SpecEval EvalProofs ParserBase GrammarSpec ParserGrammar
  ParserSpec PropParser PropEval Parens PropString FloatFacts DecimalText DecimalFloat DecimalShort PrintFloat PropPrint PropNumber Toy.
Import ListNotations.
Local Open Scope string_scope.
Local Open Scope list_scope.

(** ** Which numbers are printed exactly *)
Section Floats.
Context {En : Env} (lm : Libm).
Local Instance NF : Num := F64 lm.
Notation D := (PREC - 2)%Z.
Lemma zero_reads : @reads_as_printed NF En f0.
Proof.
  assert (E : @round_and_format NF En f0 false = lit "0") by (apply c44_zero; reflexivity).
  split.
  - rewrite E. split; [repeat constructor|reflexivity].
  - exists [], 48%N. split; [exact E|reflexivity].
Qed.
Lemma some_inj {A} (x y : A) : Some x = Some y -> x = y.
Proof. congruence. Qed.
Lemma literal_dec t v x : literal t v -> number t (x : @T NF) -> exists c p, (0 <= c)%Z /\ x = f_of_dec false c p /\ v = decR c p.
Proof.
  intros Hl [_ Hx]. change (nparse t) with (parse_f64 t) in Hx. destruct Hl as [ip H Hne|ip fp H1 H2 Hne].
  - exists (digits_val ip), 0%Z. split; [now apply digits_val_nonneg|]. split.
    + pose proof (parse_int false ip [] 0 H Hne I I eq_refl) as G. rewrite app_nil_r in G.
      destruct ip as [|c ip]; [congruence|]. apply parse_pos in G; [|now inversion H]. congruence.
    + rewrite place_digits by auto. now rewrite app_nil_r.
  - exists (digits_val (ip ++ fp)), (0 - Z.of_nat (List.length fp))%Z. split; [apply digits_val_nonneg; now apply Forall_app|]. split.
    + destruct ip as [|c ip].
      * cbn [app] in *. rewrite parse_dot in Hx by assumption. congruence.
      * pose proof (parse_frac false (c :: ip) fp [] 0 H1 ltac:(discriminate) H2 I eq_refl) as G. rewrite app_nil_r in G.
        apply parse_pos in G; [|now inversion H1]. exact (some_inj _ _ (eq_trans (eq_sym Hx) G)).
    + now rewrite place_digits.
Qed.
(** A literal with at most [PREC - 2] decimals (not counting zeros at the end)
    that is not too large: the number it stands for is printed exactly. *)
Theorem c54_numbers t v x C : literal t v -> number t (x : @T NF) ->
  v = (IZR C / IZR (10 ^ D))%R -> (v + 1 <= IZR (10 ^ (15 - D)))%R -> @reads_as_printed NF En x.
Proof.
  intros Hl Hx Hv Hb. destruct (literal_dec t v x Hl Hx) as (c & p & Hc & -> & Ev).
  assert (HD : (6 <= D <= 11)%Z) by (destruct D_cases as [-> | ->]; lia).
  set (Tn := IZR (10 ^ D)) in *.
  assert (PT : (1000000 <= Tn)%R) by (unfold Tn; apply IZR_le; destruct D_cases as [-> | ->]; vm_compute; discriminate).
  assert (PT2 : (Tn <= 100000000000)%R) by (unfold Tn; apply IZR_le; destruct D_cases as [-> | ->]; vm_compute; discriminate).
  destruct (Z.eq_dec c 0) as [->|Hne]; [rewrite f_of_dec_zero; apply zero_reads|].
  assert (Hv0 : (0 < v)%R) by (rewrite Ev; apply decR_gt0; lia).
  assert (EC : IZR C = (v * Tn)%R) by (rewrite Hv; field; lra).
  assert (HC1 : (1 <= C)%Z). { apply Z.lt_pred_le. apply lt_IZR. cbn. rewrite EC. apply Rmult_lt_0_compat; lra. }
  assert (HC2 : (IZR C <= 1000000000000000 - Tn)%R).
  { rewrite EC. assert (E15 : 1000000000000000%R = (IZR (10 ^ (15 - D)) * Tn)%R).
    { unfold Tn. rewrite <- mult_IZR, <- Z.pow_add_r by lia. replace (15 - D + D)%Z with 15%Z by lia. reflexivity. }
    rewrite E15. replace (IZR (10 ^ (15 - D)) * Tn - Tn)%R with ((IZR (10 ^ (15 - D)) - 1) * Tn)%R by ring. apply Rmult_le_compat_r; lra. }
  assert (HC1' : (1 <= IZR C)%R) by now apply IZR_le.
  assert (Hvs : (bpow radix2 (-1022) <= Rabs v)%R).
  { rewrite Rabs_pos_eq by lra. apply Rle_trans with (bpow radix2 (-40)); [apply bpow_le; lia|].
    apply Rle_trans with (/ 100000000000)%R.
    - change (-40)%Z with (- (40))%Z. rewrite bpow_opp. apply Rinv_le; [lra|]. rewrite <- (IZR_Zpower radix2) by lia. apply IZR_le. vm_compute. discriminate.
    - apply Rmult_le_reg_r with Tn; [lra|]. rewrite <- EC. apply Rle_trans with 1%R; [|exact HC1'].
      apply Rmult_le_reg_l with 100000000000%R; [lra|]. rewrite <- Rmult_assoc, Rinv_r by lra. lra. }
  pose proof (RN_error v Hvs) as RE. rewrite (Rabs_pos_eq v) in RE by lra. apply Rabs_le_inv in RE.
  destruct (f_of_dec_spec false c p ltac:(lia)) as [V H]. cbv zeta iota in H. rewrite <- Ev in H.
  set (x := f_of_dec false c p) in *.
  assert (Hvb : (v <= 1000000000000000)%R).
  { apply Rmult_le_reg_r with Tn; [lra|]. rewrite <- EC. apply Rle_trans with 1000000000000000%R; [lra|]. rewrite <- (Rmult_1_r 1000000000000000) at 1. apply Rmult_le_compat_l; lra. }
  assert (EB := emax_big).
  assert (P15 : IZR (10 ^ 15) = 1000000000000000%R) by reflexivity. rewrite P15 in EB.
  assert (RB : (Rabs (RN v) < bpow radix2 emax64)%R).
  { apply Rle_lt_trans with 1000000000000000%R; [|exact EB]. rewrite <- P15. apply RN_abs_le; [split; [discriminate|reflexivity]|]. rewrite P15, Rabs_pos_eq; lra. }
  rewrite Rlt_bool_true in H by exact RB. destruct H as (H1 & H2 & H3).
  assert (ER : (Rabs (fR x * Tn - IZR C) <= / 9)%R).
  { rewrite H1, EC. replace (RN v * Tn - v * Tn)%R with ((RN v - v) * Tn)%R by ring. rewrite Rabs_mult, (Rabs_pos_eq Tn) by lra.
    apply Rle_trans with (/ 9007199254740992 * v * Tn)%R; [apply Rmult_le_compat_r; [lra|]; apply Rabs_le; lra|].
    rewrite Rmult_assoc, <- EC. lra. }
  apply Rabs_le_inv in ER.
  assert (Hpos : (0 < fR x)%R). { apply Rmult_lt_reg_r with Tn; [lra|]. lra. }
  assert (HB : (Rabs (fR x) * IZR (10 ^ D) <= IZR (10 ^ 15 - 1))%R).
  { fold Tn. rewrite Rabs_pos_eq by lra. rewrite minus_IZR, P15. lra. }
  destruct (P_spec lm) as (VP & FP & EP).
  destruct (round_dec_spec x _ D V H2 VP FP (Z.le_trans 0 6 D ltac:(discriminate) (proj1 HD)) EP HB) as (Vr & Fr & M & BM & EM & CM).
  fold Tn in EM, CM. set (rx := @round_num NF D x) in *.
  assert (EM' : fR rx = RN (IZR M / Tn)) by exact EM. assert (Vr' : fvalid rx = true) by exact Vr. assert (Fr' : fis_finite rx = true) by exact Fr.
  clear EM Vr Fr. rename EM' into EM, Vr' into Vr, Fr' into Fr.
  assert (M = C) as ->.
  { rewrite (Rabs_pos_eq (fR x * Tn)) in CM by (apply Rmult_le_pos; lra). apply Rabs_le_inv in CM.
    assert (Z.abs (M - C) < 1)%Z; [|lia]. apply lt_IZR. rewrite abs_IZR, minus_IZR. apply Rabs_lt. lra. }
  assert (Er : rx = x).
  { apply f_unique; auto; [rewrite EM, H1; now rewrite <- Hv|]. rewrite H3.
    assert (G : (0 < fR (rx))%R) by (rewrite EM, <- Hv, <- H1; exact Hpos).
    destruct (rx) as [s|s| |s m e]; try discriminate Fr; try (unfold fR, SF2R in G; lra). destruct s; [|reflexivity]. exfalso.
    assert (fR (S754_finite true m e) < 0)%R by (apply F2R_lt_0; reflexivity). lra. }
  assert (Hz : feqb (rx) f0 = false).
  { rewrite Er. destruct (feqb x f0) eqn:E; [|reflexivity]. apply feqb_zero in E as [s E]. rewrite E in Hpos. cbn in Hpos. lra. }
  assert (Hf : finite x) by (split; assumption).
  pose proof (c44_reads lm x false Hf ltac:(split; assumption) Hz) as HR0.
  assert (HR : parse_f64 (@round_and_format NF En x false) = Some rx) by exact HR0. rewrite Er in HR. clear HR0.
  destruct (c44_nearest lm x Hf HB) as (M & CM' & HM & _). fold Tn in CM'.
  assert (M = C) as ->.
  { rewrite (Rabs_pos_eq (fR x * Tn)) in CM' by (apply Rmult_le_pos; lra). apply Rabs_le_inv in CM'.
    assert (Z.abs (M - C) < 1)%Z; [|lia]. apply lt_IZR. rewrite abs_IZR, minus_IZR. apply Rabs_lt. lra. }
  destruct (HM ltac:(lia) false) as (ip & fp & E & (Dg & Hipne & _) & Df & _). rewrite (proj2 (Z.ltb_ge C 0)) in E by lia. cbn [app] in E.
  assert (E' : @round_and_format NF En x false = ip ++ match fp with [] => [] | _ => 46%N :: fp end) by exact E. clear E. rename E' into E.
  split.
  - split; [|exact HR]. rewrite E. apply Forall_app. split; [eapply Forall_impl; [|exact Dg]; auto|].
    destruct fp as [|y fp]; constructor; [now right|]. eapply Forall_impl; [|exact Df]; auto.
  - rewrite E. destruct fp as [|y fp].
    + rewrite app_nil_r. destruct (exists_last Hipne) as (l & d & ->). exists l, d. split; [reflexivity|]. unfold all_digits in Dg. apply Forall_app in Dg as [_ Dg]. now inversion Dg.
    + destruct (exists_last (l := y :: fp) ltac:(discriminate)) as (l & d & El). rewrite El in *. exists (ip ++ 46%N :: l), d. split; [now rewrite <- app_assoc|].
      unfold all_digits in Df. apply Forall_app in Df as [_ Df]. now inversion Df.
Qed.
End Floats.

Module Examples.
Section Ex.
Context {En : Env} (lm : Libm).
Local Instance NF : Num := F64 lm.
Lemma short_reads t v (x : @T NF) C : literal t v -> number t x -> v = (IZR C / IZR (10 ^ (PREC - 2)))%R -> (v + 1 <= 1000)%R -> @reads_as_printed NF En x.
Proof.
  intros H1 H2 H3 H4. apply (c54_numbers lm t v x C H1 H2 H3). eapply Rle_trans; [exact H4|]. apply IZR_le.
  destruct D_cases as [-> | ->]; vm_compute; discriminate.
Qed.
Lemma whole_reads t (x : @T NF) z : literal t (IZR z) -> (z <= 999)%Z -> number t x -> @reads_as_printed NF En x.
Proof.
  intros Hl Hz Hn. apply (short_reads t (IZR z) x (z * 10 ^ (PREC - 2))); auto.
  - rewrite mult_IZR. field. apply IZR_neq. destruct D_cases as [-> | ->]; discriminate.
  - rewrite <- plus_IZR. apply IZR_le. lia.
Qed.
(** 2x^3-5.25 *)
Example tree_of : exists a, expression (lit "2x^3-5.25") (a : AST NF) /\ printable a.
Proof.
  assert (L2 : literal (lit "2") (IZR 2)).
  { replace (IZR 2) with (place_value (lit "2") []) by (cbv - [Rplus Rmult Rdiv IZR]; lra). apply L_whole; [repeat constructor|discriminate]. }
  assert (L3 : literal (lit "3") (IZR 3)).
  { replace (IZR 3) with (place_value (lit "3") []) by (cbv - [Rplus Rmult Rdiv IZR]; lra). apply L_whole; [repeat constructor|discriminate]. }
  assert (L5 : literal (lit "5.25") (525 / 100)%R).
  { replace (525 / 100)%R with (place_value (lit "5") (lit "25")) by (cbv - [Rplus Rmult Rdiv IZR]; lra).
    apply (L_point (lit "5") (lit "25")); [repeat constructor|repeat constructor|discriminate]. }
  destruct (literal_number lm _ _ L2) as (x2 & N2 & _). destruct (literal_number lm _ _ L3) as (x3 & N3 & _).
  destruct (literal_number lm _ _ L5) as (x5 & N5 & _).
  assert (Hx : name (lit "x")).
  { exists (ch "x"), []. split; [reflexivity|]. split; [left; reflexivity|]. split; [|constructor].
    repeat split; try discriminate; try reflexivity; cbn; intuition discriminate. }
  exists (AOp OSub (AOp OHiddenMult (@AScalar NF x2) (AOp OPow (AVar (lit "x")) (@AScalar NF x3))) (@AScalar NF x5)). split.
  - constructor. apply (phrase_down 1); [lia|]. apply (P_left expression 1 true (ch "-") OSub (lit "2x^3") (lit "5.25")); [cbn; tauto|reflexivity| |].
    + apply (phrase_down 7); [lia|]. apply (P_juxtaposed expression true (lit "2") (lit "x^3")).
      * exists [], (ch "2"), (ch "x"), (lit "^3"). repeat split; try discriminate. left. split; [reflexivity|left; reflexivity].
      * apply (phrase_down 10); [lia|]. apply P_atom, A_number; [discriminate|exact N2].
      * apply (phrase_down 8); [lia|]. apply (P_right expression 8 false (ch "^") OPow (lit "x") (lit "3")); [cbn; tauto|reflexivity| |];
          (apply (phrase_down 10); [lia|]); apply P_atom; [now apply A_variable|apply A_number; [discriminate|exact N3]].
    + apply (phrase_down 10); [lia|]. apply P_atom, A_number; [discriminate|exact N5].
  - assert (R2 : reads_as_printed x2) by now apply (whole_reads (lit "2") x2 2).
    assert (R3 : reads_as_printed x3) by now apply (whole_reads (lit "3") x3 3).
    assert (R5 : reads_as_printed x5).
    { apply (short_reads (lit "5.25") _ x5 (525 * 10 ^ (PREC - 4)) L5 N5); [|lra].
      rewrite mult_IZR. replace (IZR (10 ^ (PREC - 2))) with (100 * IZR (10 ^ (PREC - 4)))%R.
      - field. apply IZR_neq. unfold PREC. destruct high_prec; discriminate.
      - rewrite <- mult_IZR. f_equal. unfold PREC. destruct high_prec; reflexivity. }
    cbn [printable In]. intuition (try discriminate; auto).
Qed.
(** Its text means the same. *)
Example text_of (c : Ctx NF) : exists a : AST NF, parse (lit "2x^3 - 5.25") = Ok a /\
  forall r, quick_outcome (ast_as_string a) c r <-> quick_outcome (lit "2x^3 - 5.25") c r.
Proof.
  destruct tree_of as (a & Ha & Hp). assert (Hb : only_blanks (lit "2x^3 - 5.25")).
  { intros x Hx. cbn in Hx. repeat (destruct Hx as [<-|Hx]; [intros Hw; (reflexivity || discriminate Hw)|]). destruct Hx. }
  exists a. split; [now apply c03_grammar|]. intros r. now apply c54_same_meaning.
Qed.

(** An equation system, printed and read with its unknown. *)
Example system_text : exists l r : AST NF, exists body, ast_as_string (AEq [(l, r)] [lit "x"]) = body ++ lit ")" /\
  exists es, Forall2 same_equation [(l, r)] es /\ parse (body ++ lit ",x" ++ lit ")") = Ok (AEq es [lit "x"]).
Proof.
  assert (L2 : literal (lit "2") (IZR 2)).
  { replace (IZR 2) with (place_value (lit "2") []) by (cbv - [Rplus Rmult Rdiv IZR]; lra). apply L_whole; [repeat constructor|discriminate]. }
  destruct (literal_number lm _ _ L2) as (x2 & N2 & _).
  assert (R2 : reads_as_printed x2) by now apply (whole_reads (lit "2") x2 2).
  assert (Hx : name (lit "x")).
  { exists (ch "x"), []. split; [reflexivity|]. split; [left; reflexivity|]. split; [|constructor].
    repeat split; try discriminate; try reflexivity; cbn; intuition discriminate. }
  assert (W1 : written (AVar (lit "x") : AST NF)).
  { exists (lit "x"). split; [|split; [|split]].
    - constructor. apply (phrase_down 10); [lia|]. apply P_atom. now apply A_variable.
    - intros c [<-|[]]. reflexivity.
    - intros [H|[]]. discriminate H.
    - cbn. exact I. }
  assert (W2 : written (@AScalar NF x2)).
  { exists (lit "2"). split; [|split; [|split]].
    - constructor. apply (phrase_down 10); [lia|]. apply P_atom, A_number; [discriminate|exact N2].
    - intros c [<-|[]]. reflexivity.
    - intros [H|[]]. discriminate H.
    - exact R2. }
  exists (AVar (lit "x")), (@AScalar NF x2). eexists. split; [cbn [ast_as_string map join]; rewrite app_assoc; reflexivity|].
  apply (c54_equations [(AVar (lit "x"), @AScalar NF x2)] [lit "x"]).
  - discriminate.
  - constructor; [now split|constructor].
  - constructor; [|constructor]. split; [|split].
    + apply AT_char; [cbn; intuition discriminate|discriminate|constructor].
    + intros [H|[]]. discriminate H.
    + intros c [<-|[]]. reflexivity.
  - cbn [ast_as_string map join]. rewrite app_assoc. reflexivity.
Qed.

(** What is excluded: the texts of plus-minus, index, cross product and
    absolute value do not read back. *)
Definition head_of (r : res ParserError (AST NF)) : option SimpleOp := match r with Ok (AOp op _ _) => Some op | _ => None end.
Definition is_variable (r : res ParserError (AST NF)) : bool := match r with Ok (AVar _) => true | _ => false end.
Definition text_of_text (s : string) : res ParserError str := do a <- parse (lit s); Ok (ast_as_string (a : AST NF)).
Example plus_minus_text : text_of_text "a&b" = Ok (lit "a +- b") /\ head_of (parse (lit "a&b")) = Some OAddSub /\ head_of (parse (lit "a +- b")) = Some OAdd.
Proof. split; [|split]; vm_compute; reflexivity. Qed.
Example cross_text : text_of_text "a#b" = Ok (lit "axb") /\ is_variable (parse (lit "axb")) = true.
Proof. split; vm_compute; reflexivity. Qed.
Example index_text : text_of_text "a?b" = Ok (lit "a_b") /\ is_variable (parse (lit "a_b")) = true.
Proof. split; vm_compute; reflexivity. Qed.
Example abs_text : text_of_text "abs(x)" = Ok (lit "|x|") /\ is_variable (parse (lit "|x|")) = false.
Proof. split; vm_compute; reflexivity. Qed.
(** A power multiplied without a sign: the text is not a product. *)
Example power_text : text_of_text "a^bc" = Ok (lit "a^(bc)").
Proof. vm_compute. reflexivity. Qed.
End Ex.
Example power_product_text lm : @text_of_text ET lm "x^2y" = Ok (lit "x^(2)y") /\ head_of lm (@parse (NF lm) ET (lit "x^2y")) = Some OHiddenMult /\
  head_of lm (@parse (NF lm) ET (lit "x^(2)y")) = None.
Proof. split; [|split]; vm_compute; reflexivity. Qed.
(** Numbers near 0 are printed in scientific notation, which is not read as a number. *)
Example scientific_text lm : @text_of_text ET lm "0.0000001" = Ok (lit "1e-7") /\ head_of lm (@parse (NF lm) ET (lit "1e-7")) = Some OSub.
Proof. split; vm_compute; reflexivity. Qed.
End Examples.
