(** * PropNumber: C51 - the functions of one and two numbers;
    C52 - number literals. *)
From Coq Require Import List NArith ZArith Bool String Arith Lia SpecFloat Reals Lra.
From Flocq Require Import Core IEEE754.BinarySingleNaN.
From Verif Require Import Base BaseFacts F64 Num Types Maths Helpers Parser Eval SpecEval EvalProofs PropEval ParserBase GrammarSpec ParserGrammar ParserSpec PropParser
  FloatFacts DecimalText DecimalFloat SolveFloat Toy.
Import ListNotations.
Local Open Scope string_scope.
Local Open Scope list_scope.

(** ** C51 *)
Section Functions.
Context {N : Num} {En : Env}.
(** The names of the functions of one number and what they compute. *)
Definition number_functions : list (string * (T -> T)) :=
  [ ("sin", nsin); ("cos", ncos); ("tan", ntan); ("arcsin", nasin); ("arccos", nacos); ("arctan", natan);
    ("ln", nln); ("sqrt", nsqrt); ("abs", fun x => if nltb x n0 then nmul x nm1 else x) ].
Definition vector_value (v : Value N) : Prop := match v with Vector _ => True | _ => False end.
Definition scalar_value (v : Value N) : Prop := match v with Scalar _ => True | _ => False end.

Lemma unary_scalar op f s : In (op, s) functions -> In (s, f) number_functions ->
  forall x y, op_meaning op (@Scalar N x) y = Ok [Scalar (f x)].
Proof.
  intros H1 H2 x y. cbn in H1, H2.
  repeat (destruct H1 as [H1|H1]; [injection H1 as <- <-; repeat (destruct H2 as [H2|H2]; [try discriminate H2; injection H2 as <-; try reflexivity; cbn; now destruct (nltb x n0)|]); destruct H2|]). destruct H1.
Qed.
Lemma unary_other op f s : In (op, s) functions -> In (s, f) number_functions ->
  forall v y, ~ scalar_value v -> (s = "abs" -> ~ vector_value v) -> exists e, op_meaning op (v : Value N) y = Err e.
Proof.
  intros H1 H2 v y Hv Ha.
  assert (Hn : s <> "det" /\ s <> "inv").
  { split; intros ->; cbn in H2; repeat (destruct H2 as [H2|H2]; [discriminate H2|]); destruct H2. }
  destruct Hn as [Hd Hi]. clear H2. cbn in H1.
  repeat (destruct H1 as [H1|H1]; [injection H1 as <- <-; try congruence; destruct v; try (exfalso; apply Hv; exact I); try (exfalso; apply (Ha eq_refl); exact I); eexists; reflexivity|]).
  destruct H1.
Qed.

Lemma grid_one op (g : Value N -> Value N) lv y : (forall x, In x lv -> op_meaning op x y = Ok [g x]) -> grid op lv [y] = Ok (map g lv).
Proof.
  intros H. apply concatM_ok_iff. exists (map (fun x => [g x]) lv). split.
  - induction lv as [|x lv IH]; [reflexivity|]. cbn [mapM map]. rewrite IH by (intros; apply H; now right).
    unfold concatM. cbn [mapM]. rewrite apply_op_meaning, H by now left. reflexivity.
  - clear H. induction lv; [reflexivity|]. cbn [map List.concat app]. now f_equal.
Qed.
Lemma scalar_outcome (x : T) c : outcome (AScalar x) c (Ok [@Scalar N x]).
Proof. apply (from_value_outcome [] c (Scalar x)). Qed.
Lemma call_text s op t a : In (op, s) functions -> expression t a -> solid t ->
  parse (lit s ++ lit "(" ++ t ++ lit ")") = Ok (AOp op a (AScalar n0) : AST N).
Proof.
  intros Hf He Hs. assert (Hsol : solid (lit s ++ lit "(" ++ t ++ lit ")")).
  { apply solid_app; [|apply solid_cons; [reflexivity|]; apply solid_app; [exact Hs|apply solid_cons; [reflexivity|apply solid_nil]]].
    cbn in Hf. repeat (destruct Hf as [Hf|Hf]; [injection Hf as _ <-; repeat (apply solid_cons; [reflexivity|]); apply solid_nil|]). destruct Hf. }
  destruct (solid_blanks _ Hsol) as [H1 H2]. apply c03_grammar; [exact H1|]. rewrite H2. constructor. apply (phrase_down 10); [lia|]. apply P_atom.
  now apply A_function.
Qed.
(** The function is applied to every value of the argument. *)
Theorem c51_function s f t a (c : Ctx N) xs : In (s, f) number_functions -> expression t a -> solid t ->
  outcome a c (Ok (map Scalar xs)) -> quick_outcome (lit s ++ lit "(" ++ t ++ lit ")") c (Ok (map (fun x => Scalar (f x)) xs)).
Proof.
  intros Hf He Hs Ho. assert (Hop : exists op, In (op, s) functions).
  { cbn in Hf. repeat (destruct Hf as [Hf|Hf]; [injection Hf as <- _; eexists; cbn; intuition eauto; fail|]). destruct Hf. }
  destruct Hop as [op Hop]. apply (proj1 (c40_quick_eval _ _)). exists (AOp op a (AScalar n0)). split; [now apply call_text|].
  apply (op_outcome_iff [] c op a (AScalar n0) (map Scalar xs) [Scalar n0]); [exact Ho|apply scalar_outcome|]. split; [discriminate|].
  rewrite (grid_one op (fun v => match v with Scalar x => Scalar (f x) | _ => v end)); [now rewrite map_map|].
  intros v Hv. apply in_map_iff in Hv as (x & <- & _). now apply (unary_scalar op f s).
Qed.
(** Vectors and matrices are not accepted; abs takes vectors, see [c51_abs_vector]. *)
Theorem c51_not_a_number s f t a (c : Ctx N) v : In (s, f) number_functions -> expression t a -> solid t ->
  outcome a c (Ok [v]) -> ~ scalar_value v -> (s = "abs" -> ~ vector_value v) ->
  exists e, quick_outcome (lit s ++ lit "(" ++ t ++ lit ")") c (Err (QEvalError (MathError e))).
Proof.
  intros Hf He Hs Ho Hv Ha. assert (Hop : exists op, In (op, s) functions).
  { cbn in Hf. repeat (destruct Hf as [Hf|Hf]; [injection Hf as <- _; eexists; cbn; intuition eauto; fail|]). destruct Hf. }
  destruct Hop as [op Hop]. destruct (unary_other op f s Hop Hf v (Scalar n0) Hv Ha) as [e E]. exists e.
  apply (proj1 (proj2 (proj2 (c40_quick_eval _ _)))). exists (AOp op a (AScalar n0)). split; [now apply call_text|].
  apply (op_outcome_iff [] c op a (AScalar n0) [v] [Scalar n0]); [exact Ho|apply scalar_outcome|]. split; [discriminate|].
  unfold grid, concatM. cbn [mapM]. rewrite apply_op_meaning, E. reflexivity.
Qed.
(** The length of a vector. *)
Theorem c51_abs_vector t a (c : Ctx N) l : expression t a -> solid t -> outcome a c (Ok [Vector l]) ->
  quick_outcome (lit "abs(" ++ t ++ lit ")") c (Ok [Scalar (nsqrt (fold_left (fun s x => nadd s (npowi x 2)) l n0))]).
Proof.
  intros He Hs Ho. apply (proj1 (c40_quick_eval _ _)). exists (AOp OAbs a (AScalar n0)). split; [apply (call_text "abs"); auto; cbn; tauto|].
  apply (op_outcome_iff [] c OAbs a (AScalar n0) [Vector l] [Scalar n0]); [exact Ho|apply scalar_outcome|]. split; [discriminate|]. reflexivity.
Qed.
(** The functions of two numbers: the texts root(t,u) and t^u (with [t] and
    [u] in parentheses, so that any expressions can be written there). *)
Theorem c51_root t u a b (c : Ctx N) x y : expression t a -> expression u b -> solid t -> solid u ->
  outcome a c (Ok [Scalar x]) -> outcome b c (Ok [Scalar y]) ->
  quick_outcome (lit "root(" ++ t ++ lit "," ++ u ++ lit ")") c (Ok [Scalar (npowf x (ndiv n1 y))]).
Proof.
  intros Ha Hb Hs Ht Hx Hy. apply (proj1 (c40_quick_eval _ _)). exists (AOp ORoot a b). split.
  - assert (Hsol : solid (lit "root(" ++ t ++ lit "," ++ u ++ lit ")")).
    { apply solid_app; [repeat (apply solid_cons; [reflexivity|]); apply solid_nil|]. apply solid_app; [exact Hs|]. apply solid_cons; [reflexivity|].
      apply solid_app; [exact Ht|apply solid_cons; [reflexivity|apply solid_nil]]. }
    destruct (solid_blanks _ Hsol) as [H1 H2]. apply c03_grammar; [exact H1|]. rewrite H2. constructor. apply (phrase_down 10); [lia|]. apply P_atom.
    pose proof (A_root expression t u a b Ha Hb) as G. cbn [join] in G. rewrite <- !app_assoc in G. exact G.
  - apply (op_outcome_iff [] c ORoot a b [Scalar x] [Scalar y]); auto. split; [discriminate|]. reflexivity.
Qed.
Theorem c51_power t u a b (c : Ctx N) x y : expression t a -> expression u b -> solid t -> solid u ->
  outcome a c (Ok [Scalar x]) -> outcome b c (Ok [Scalar y]) ->
  quick_outcome (lit "(" ++ t ++ lit ")^(" ++ u ++ lit ")") c (Ok [Scalar (npowf x y)]).
Proof.
  intros Ha Hb Hs Ht Hx Hy. apply (proj1 (c40_quick_eval _ _)). exists (AOp OPow (AOp OParenths a (AScalar n0)) (AOp OParenths b (AScalar n0))). split.
  - assert (Hsol : solid (lit "(" ++ t ++ lit ")^(" ++ u ++ lit ")")).
    { apply solid_cons; [reflexivity|]. apply solid_app; [exact Hs|]. apply solid_app; [repeat (apply solid_cons; [reflexivity|]); apply solid_nil|].
      apply solid_app; [exact Ht|apply solid_cons; [reflexivity|apply solid_nil]]. }
    destruct (solid_blanks _ Hsol) as [H1 H2]. apply c03_grammar; [exact H1|]. rewrite H2. constructor. apply (phrase_down 8); [lia|].
    replace (lit "(" ++ t ++ lit ")^(" ++ u ++ lit ")") with ((ch "(" :: t ++ [ch ")"]) ++ ch "^" :: (ch "(" :: u ++ [ch ")"]))
      by (cbn [lit app]; rewrite <- app_assoc; reflexivity).
    apply P_right; [cbn; tauto|reflexivity| |]; (apply (phrase_down 10); [lia|]); apply P_atom; now apply A_parenths.
  - apply (op_outcome_iff [] c OPow _ _ [Scalar x] [Scalar y]); [now apply c04_same_meaning|now apply c04_same_meaning|]. split; [discriminate|]. reflexivity.
Qed.
End Functions.

(** ** Nearest binary64 numbers *)
(** [x] is the double that IEEE 754 assigns to the real number [v]: a nearest
    one, with an even significand if there are two nearest ones; infinity from
    halfway between the largest finite double and 2^1024. *)
Definition overflow_threshold : R := (IZR (2 ^ 1024 - 2 ^ 970))%R.
Definition even_significand (x : f64) : Prop := match x with S754_finite _ m _ => Z.even (Z.pos m) = true | _ => True end.
Definition nearest_double (v : R) (x : f64) : Prop :=
  fvalid x = true /\
  if Rlt_dec (Rabs v) overflow_threshold
  then fis_finite x = true /\
       (forall y, fvalid y = true -> fis_finite y = true -> (Rabs (fR x - v) <= Rabs (fR y - v))%R) /\
       (forall y, fvalid y = true -> fis_finite y = true -> Rabs (fR y - v) = Rabs (fR x - v) -> fR y = fR x \/ even_significand x)
  else x = S754_infinity (if Rlt_dec v 0 then true else false).

Notation fexp64 := (SpecFloat.fexp prec64 emax64).
Lemma fR_format x : fvalid x = true -> generic_format radix2 fexp64 (fR x).
Proof. intros H. destruct (to_bf x H) as [b <-]. rewrite fR_bf. apply generic_format_B2R. Qed.
Lemma RN_near v : Rnd_N_pt (generic_format radix2 fexp64) v (RN v).
Proof. apply round_N_pt. typeclasses eauto. Qed.
Lemma RN_even v : Rnd_NE_pt radix2 fexp64 v (RN v).
Proof.
  assert (P : Prec_gt_0 prec64) by reflexivity.
  assert (E : Exists_NE radix2 (FLT_exp (3 - emax64 - prec64) prec64)) by (apply exists_NE_FLT; right; reflexivity).
  exact (round_NE_pt radix2 (FLT_exp (3 - emax64 - prec64) prec64) v).
Qed.

Lemma nearest_of_RN v x : fvalid x = true -> fis_finite x = true -> fR x = RN v ->
  (forall y, fvalid y = true -> fis_finite y = true -> (Rabs (fR x - v) <= Rabs (fR y - v))%R) /\
  (forall y, fvalid y = true -> fis_finite y = true -> Rabs (fR y - v) = Rabs (fR x - v) -> fR y = fR x \/ even_significand x).
Proof.
  intros Hv Hf E. pose proof (RN_near v) as [F Hn]. split.
  - intros y Hy _. rewrite E. apply Hn. now apply fR_format.
  - intros y Hy _ Hd. destruct (RN_even v) as [_ [(g & G1 & G2 & G3)|H]].
    + right. destruct x as [s|s| |s m e]; try exact I. cbn [even_significand].
      rewrite <- E in G1. assert (Hc : canonical radix2 fexp64 (Float radix2 (cond_Zopp s (Z.pos m)) e)).
      { apply canonical_bounded. exact Hv. }
      assert (Hg : g = Float radix2 (cond_Zopp s (Z.pos m)) e).
      { apply (canonical_unique radix2 fexp64); auto. }
      rewrite Hg in G3. cbn in G3. now destruct s.
    + left. rewrite E. apply H. split; [now apply fR_format|]. intros g Hg. rewrite Hd, E. now apply Hn.
Qed.

Lemma threshold_bpow : overflow_threshold = (bpow radix2 1024 - bpow radix2 970)%R.
Proof. unfold overflow_threshold. now rewrite minus_IZR, <- !(IZR_Zpower radix2) by lia. Qed.
Lemma RN_threshold : (bpow radix2 emax64 <= RN overflow_threshold)%R.
Proof.
  pose proof (f_of_dec_spec false (2 ^ 1024 - 2 ^ 970) 0 eq_refl) as [_ H]. cbv zeta iota in H.
  rewrite decR_pos, Z.pow_0_r, Z.mul_1_r in H by lia. fold overflow_threshold in H.
  destruct (Rlt_bool_spec (Rabs (RN overflow_threshold)) (bpow radix2 emax64)) as [H1|H1].
  - exfalso. destruct H as (_ & H & _). assert (E : fis_finite (f_of_dec false (2 ^ 1024 - 2 ^ 970) 0) = false) by (vm_compute; reflexivity). congruence.
  - rewrite Rabs_pos_eq in H1; [exact H1|]. rewrite <- RN_0. apply RN_le. unfold overflow_threshold. apply IZR_le. lia.
Qed.
Definition fmax : f64 := S754_finite false (2 ^ 53 - 1) 971.
Lemma fmax_R : fR fmax = (bpow radix2 1024 - bpow radix2 971)%R.
Proof.
  unfold fR, fmax, SF2R, F2R. cbn [cond_Zopp Fnum Fexp]. change (Z.pos (2 ^ 53 - 1)) with (2 ^ 53 - 1)%Z.
  rewrite minus_IZR. change 1024%Z with (53 + 971)%Z. rewrite bpow_plus. rewrite <- (IZR_Zpower radix2 53) by lia. change (Z.pow radix2 53) with (2 ^ 53)%Z. ring.
Qed.
Lemma RN_below v : (0 <= v < overflow_threshold)%R -> (0 <= RN v < bpow radix2 emax64)%R.
Proof.
  intros [H0 H]. split; [rewrite <- RN_0; now apply RN_le|]. apply Rnot_le_lt. intros Hc.
  destruct (Rle_or_lt v (fR fmax)) as [Hm|Hm].
  - apply RN_le in Hm. rewrite RN_id in Hm by reflexivity. pose proof (fR_lt_emax fmax eq_refl). pose proof (Rle_abs (fR fmax)). lra.
  - destruct (RN_near v) as [_ Hn]. specialize (Hn (fR fmax) (fR_format fmax eq_refl)). rewrite fmax_R in *. rewrite threshold_bpow in H.
    change emax64 with 1024%Z in Hc.
    assert (E : bpow radix2 971 = (2 * bpow radix2 970)%R) by (change 971%Z with (1 + 970)%Z; rewrite bpow_plus; reflexivity).
    pose proof (bpow_gt_0 radix2 970). rewrite E in *.
    rewrite (Rabs_left1 (_ - _ - v)) in Hn by lra. rewrite Rabs_pos_eq in Hn by lra. lra.
Qed.
Lemma nearest_of_dec c p : (0 <= c)%Z -> nearest_double (decR c p) (f_of_dec false c p).
Proof.
  intros Hc. assert (H0 : (0 <= decR c p)%R).
  { unfold decR. apply Rmult_le_pos; [now apply IZR_le|apply bpow_ge_0]. }
  destruct (Z.eq_dec c 0) as [->|Hne].
  - assert (E : decR 0 p = 0%R) by (unfold decR; ring). rewrite f_of_dec_zero, E. split; [reflexivity|].
    destruct (Rlt_dec (Rabs 0) overflow_threshold) as [H|H].
    + split; [reflexivity|]. apply nearest_of_RN; try reflexivity. now rewrite RN_0.
    + exfalso. apply H. rewrite Rabs_R0. unfold overflow_threshold. now apply IZR_lt.
  - destruct (f_of_dec_spec false c p ltac:(lia)) as [V H]. cbv zeta iota in H. split; [exact V|].
    rewrite (Rabs_pos_eq (decR c p)) by exact H0. destruct (Rlt_dec (decR c p) overflow_threshold) as [L|L].
    + pose proof (RN_below _ (conj H0 L)) as [G1 G2]. rewrite Rlt_bool_true in H by (rewrite Rabs_pos_eq; lra).
      destruct H as (H1 & H2 & _). split; [exact H2|]. now apply nearest_of_RN.
    + destruct (Rlt_dec (decR c p) 0); [lra|]. rewrite Rlt_bool_false in H; [exact H|].
      apply Rnot_lt_le in L. apply RN_le in L. pose proof RN_threshold. rewrite Rabs_pos_eq; [lra|]. pose proof (bpow_gt_0 radix2 emax64). lra.
Qed.

(** ** C52: number literals *)
Definition digit_value (c : char) : R := IZR (Z.of_N c - 48).
Definition whole_part (ds : str) : R := fold_left (fun v c => (10 * v + digit_value c)%R) ds 0%R.
Definition fractional_part (ds : str) : R := fold_right (fun c v => ((digit_value c + v) / 10)%R) 0%R ds.
Definition place_value (ip fp : str) : R := (whole_part ip + fractional_part fp)%R.
(** The texts: digits, possibly a point and more digits; at least one digit. *)
Inductive literal : str -> R -> Prop :=
| L_whole ip : Forall (fun c => is_digit c = true) ip -> ip <> [] -> literal ip (place_value ip [])
| L_point ip fp : Forall (fun c => is_digit c = true) ip -> Forall (fun c => is_digit c = true) fp -> ip ++ fp <> [] ->
    literal (ip ++ lit "." ++ fp) (place_value ip fp).

Lemma whole_digits ds : Forall (fun c => is_digit c = true) ds -> whole_part ds = IZR (digits_val ds).
Proof.
  intros H. unfold whole_part, digits_val. change 0%R with (IZR 0). generalize 0%Z as a.
  induction H as [|c ds Hc H IH]; intros a; cbn [fold_left]; [reflexivity|].
  rewrite <- IH. f_equal. rewrite plus_IZR, mult_IZR. reflexivity.
Qed.
Lemma pow10_pos n : (0 < 10 ^ Z.of_nat n)%Z. Proof. apply Z.pow_pos_nonneg; lia. Qed.
Lemma decR_place c n : decR c (- Z.of_nat n) = (IZR c / IZR (10 ^ Z.of_nat n))%R.
Proof.
  destruct n as [|n].
  - unfold decR. change (Z.of_nat 0) with 0%Z. rewrite Z.pow_0_r. unfold Rdiv. rewrite Rinv_1. reflexivity.
  - rewrite decR_neg by lia. now rewrite Z.opp_involutive.
Qed.
Lemma fractional_digits ds : Forall (fun c => is_digit c = true) ds -> fractional_part ds = decR (digits_val ds) (- Z.of_nat (List.length ds)).
Proof.
  intros H. rewrite decR_place. induction H as [|c ds Hc H IH]; [unfold Rdiv; cbn; ring|].
  unfold fractional_part in *. cbn [fold_right]. rewrite IH, digits_val_cons. cbn [List.length].
  rewrite Nat2Z.inj_succ, Z.pow_succ_r by lia. pose proof (pow10_pos (List.length ds)) as P.
  rewrite plus_IZR, !mult_IZR. unfold digit_value. change (Z.of_N c - 48)%Z with (digit_val c). field. apply IZR_neq. unfold str, char in *. lia.
Qed.
Lemma place_digits ip fp : Forall (fun c => is_digit c = true) ip -> Forall (fun c => is_digit c = true) fp ->
  place_value ip fp = decR (digits_val (ip ++ fp)) (- Z.of_nat (List.length fp)).
Proof.
  intros H1 H2. unfold place_value. rewrite whole_digits, fractional_digits by assumption. rewrite !decR_place, digits_val_app.
  rewrite plus_IZR, mult_IZR. field. apply IZR_neq. pose proof (pow10_pos (List.length fp)) as P. unfold str, char in *. lia.
Qed.
Lemma digits_val_nonneg ds : Forall (fun c => is_digit c = true) ds -> (0 <= digits_val ds)%Z.
Proof.
  intros H. induction H as [|c ds Hc H IH]; [reflexivity|]. rewrite digits_val_cons. apply digit_bounds in Hc.
  pose proof (pow10_pos (List.length ds)). unfold digit_val, str, char in *. nia.
Qed.

Lemma parse_dot fp : Forall (fun c => is_digit c = true) fp -> fp <> [] ->
  parse_f64 (lit "." ++ fp) = Some (f_of_dec false (digits_val fp) (0 - Z.of_nat (List.length fp))).
Proof.
  intros H Hne. change (lit "." ++ fp) with (46%N :: fp).
  change (parse_f64 (46%N :: fp)) with (parse_unsigned false (46%N :: fp)).
  transitivity (let '(fp, r2) := span_digits fp in
    match [] ++ fp with [] => None | ds => match parse_exp r2 with None => None | Some e => Some (f_of_dec false (digits_val ds) (e - Z.of_nat (List.length fp))) end end);
    [reflexivity|].
  rewrite span_digits_all by exact H. destruct fp; [congruence|]. reflexivity.
Qed.
Section Literals.
Context {En : Env} (lm : Libm).
Local Instance NF : Num := F64 lm.

Lemma literal_number t v : literal t v -> exists x, number t (x : @T NF) /\ nearest_double v x.
Proof.
  intros [ip H Hne|ip fp H1 H2 Hne].
  - exists (f_of_dec false (digits_val ip) 0). split.
    + split; [eapply Forall_impl; [|exact H]; auto|]. change (nparse ip) with (parse_f64 ip).
      pose proof (parse_int false ip [] 0 H Hne I I eq_refl) as G. rewrite app_nil_r in G.
      destruct ip as [|c ip]; [congruence|]. apply parse_pos; [now inversion H|exact G].
    + rewrite place_digits by auto. rewrite app_nil_r. apply nearest_of_dec. now apply digits_val_nonneg.
  - exists (f_of_dec false (digits_val (ip ++ fp)) (0 - Z.of_nat (List.length fp))). split.
    + split.
      { apply Forall_app. split; [eapply Forall_impl; [|exact H1]; auto|]. constructor; [now right|]. eapply Forall_impl; [|exact H2]; auto. }
      change (nparse ?x) with (parse_f64 x). destruct ip as [|c ip].
      * cbn [app] in *. now apply parse_dot.
      * pose proof (parse_frac false (c :: ip) fp [] 0 H1 ltac:(discriminate) H2 I eq_refl) as G. rewrite app_nil_r in G.
        apply parse_pos; [now inversion H1|exact G].
    + rewrite place_digits by auto. apply nearest_of_dec. apply digits_val_nonneg. now apply Forall_app.
Qed.
(** A text that is a number, apart from blanks, reads as the nearest double to
    the number it shows in positional notation. *)
Theorem c52_literal s v : only_blanks s -> literal (no_blanks s) v ->
  exists x, parse s = Ok (@AScalar NF x) /\ nearest_double v x.
Proof.
  intros Hb H. destruct (literal_number _ _ H) as (x & Hx & Hn). exists x. split; [|exact Hn].
  apply c03_grammar; [exact Hb|]. constructor. apply (phrase_down 10); [lia|]. apply P_atom. apply A_number; [|exact Hx].
  destruct H as [ip _ Hne|ip fp]; [exact Hne|]. now destruct ip.
Qed.
Theorem c52_value s v (c : Ctx NF) : only_blanks s -> literal (no_blanks s) v ->
  exists x, quick_outcome s c (Ok [@Scalar NF x]) /\ nearest_double v x.
Proof.
  intros Hb H. destruct (c52_literal s v Hb H) as (x & Hp & Hn). exists x. split; [|exact Hn].
  apply (proj1 (c40_quick_eval _ _)). exists (AScalar x). split; [exact Hp|apply scalar_outcome].
Qed.

(** ** C51 in binary64 arithmetic *)
(** The square root is the correctly rounded one. *)
Lemma sqrt_below x : fvalid x = true -> (0 <= fR x)%R -> (Rabs (R_sqrt.sqrt (fR x)) < overflow_threshold)%R.
Proof.
  intros V H. rewrite Rabs_pos_eq by apply R_sqrt.sqrt_pos.
  pose proof (fR_lt_emax x V) as L. pose proof (Rle_abs (fR x)).
  apply Rle_lt_trans with (bpow radix2 512).
  - rewrite <- (R_sqrt.sqrt_square (bpow radix2 512)) by apply bpow_ge_0. apply R_sqrt.sqrt_le_1_alt. rewrite <- bpow_plus. change emax64 with (512 + 512)%Z in L.
    apply Rlt_le. eapply Rle_lt_trans; eassumption.
  - rewrite <- (IZR_Zpower radix2 512) by lia. unfold overflow_threshold. apply IZR_lt. reflexivity.
Qed.
Theorem c51_sqrt_rounded x : fvalid x = true -> fis_finite x = true -> (0 <= fR x)%R ->
  nearest_double (R_sqrt.sqrt (fR x)) (@nsqrt NF x).
Proof.
  intros V F H. destruct (fsqrt_spec x V F H) as [H1 H2]. change (@nsqrt NF x) with (fsqrt x). split; [now apply fsqrt_valid|].
  destruct (Rlt_dec _ _) as [L|L]; [|exfalso; apply L; now apply sqrt_below].
  split; [exact H1|]. apply nearest_of_RN; auto. now apply fsqrt_valid.
Qed.
Theorem c51_sqrt_negative x : fvalid x = true -> fltb x f0 = true -> fis_nan (@nsqrt NF x) = true.
Proof. intros _ H. destruct x as [[]|[]| |[] m e]; try discriminate; reflexivity. Qed.
Theorem c51_abs_exact x : fvalid x = true -> fis_finite x = true ->
  exists f, In ("abs", f) (@number_functions NF) /\ fR (f x) = Rabs (fR x) /\ fis_finite (f x) = true.
Proof.
  intros V F. eexists. split; [do 8 right; left; reflexivity|]. cbv beta. change (@nltb NF x n0) with (fltb x f0).
  change (@nmul NF x nm1) with (fmul x fm1). rewrite fmul_m1 by exact V. destruct (fltb x f0) eqn:E.
  - apply (fltb_spec x f0 V f0_valid F eq_refl) in E. rewrite fR_f0 in E. split.
    + rewrite Rabs_left by exact E. destruct (to_bf x V) as [b <-]. rewrite fopp_bf, !fR_bf. apply B2R_Bopp.
    + destruct x; try discriminate; reflexivity.
  - pose proof (proj1 (not_negative_R x V F) E). split; [now rewrite Rabs_pos_eq|exact F].
Qed.
End Literals.

Module Examples.
Section Examples.
Context {En : Env} (lm : Libm).
Local Instance NF : Num := F64 lm.
Local Open Scope R_scope.
Ltac solid_tac := repeat (apply solid_cons; [reflexivity|]); apply solid_nil.
Example literal_ex : literal (lit "12.375") (12 + 375 / 1000).
Proof.
  assert (E : place_value (lit "12") (lit "375") = 12 + 375 / 1000).
  { unfold place_value, whole_part, fractional_part, digit_value. cbn [lit fold_left fold_right]. cbn. lra. }
  rewrite <- E. apply (L_point (lit "12") (lit "375")); [repeat constructor|repeat constructor|discriminate].
Qed.
Example literal_dot_ex : literal (lit ".5") (/ 2).
Proof.
  assert (E : place_value [] (lit "5") = / 2).
  { unfold place_value, whole_part, fractional_part, digit_value. cbn [lit fold_left fold_right]. cbn. lra. }
  rewrite <- E. apply (L_point [] (lit "5")); [constructor|repeat constructor|discriminate].
Qed.
(** 12.375 is a double, so it is read exactly. *)
Example literal_exact_ex : exists x, quick_outcome (lit " 12 .375") (mkCtx [] []) (Ok [@Scalar NF x]) /\ fR x = 12 + 375 / 1000.
Proof.
  destruct (c52_value lm (lit " 12 .375") (12 + 375 / 1000) (mkCtx [] [])) as (x & H & Hn).
  - intros c Hc. cbn in Hc. repeat (destruct Hc as [<-|Hc]; [intros Hw; (reflexivity || discriminate Hw)|]). destruct Hc.
  - exact literal_ex.
  - exists x. split; [exact H|]. destruct Hn as [V Hn]. destruct (Rlt_dec _ _) as [L|L].
    + destruct Hn as (_ & Hn & _). specialize (Hn (S754_finite false 6966505673588736 (-49)) eq_refl eq_refl).
      assert (E : fR (S754_finite false 6966505673588736 (-49)) = 12 + 375 / 1000).
      { unfold fR, SF2R, F2R. cbn [cond_Zopp Fnum Fexp bpow]. change (Z.pow_pos radix2 49) with 562949953421312%Z. lra. }
      rewrite E in Hn. replace (12 + 375 / 1000 - (12 + 375 / 1000)) with 0 in Hn by ring. rewrite Rabs_R0 in Hn.
      pose proof (Rabs_pos (fR x - (12 + 375 / 1000))) as P. destruct (Req_dec (fR x - (12 + 375 / 1000)) 0) as [Z|Z]; [lra|].
      apply Rabs_no_R0 in Z. lra.
    + exfalso. apply L. rewrite Rabs_pos_eq by lra. apply Rlt_le_trans with 13; [lra|]. unfold overflow_threshold. apply IZR_le. discriminate.
Qed.
Lemma expr_ex s v : literal s v -> exists x, expression s (@AScalar NF x).
Proof.
  intros H. destruct (literal_number lm _ _ H) as (x & Hx & _). exists x. constructor. apply (phrase_down 10); [lia|]. apply P_atom. apply A_number; [|exact Hx].
  destruct H as [ip _ Hne|ip fp]; [exact Hne|]. now destruct ip.
Qed.
Example sqrt_ex : exists x, quick_outcome (lit "sqrt(12.375)") (mkCtx [] []) (Ok [@Scalar NF (fsqrt x)]).
Proof.
  destruct (expr_ex _ _ literal_ex) as [x H]. exists x.
  apply (c51_function "sqrt" (@nsqrt NF) (lit "12.375") (AScalar x) (mkCtx [] []) [x]).
  - cbn. tauto.
  - exact H.
  - solid_tac.
  - apply scalar_outcome.
Qed.
Example root_ex : exists x y, quick_outcome (lit "root(12.375,.5)") (mkCtx [] []) (Ok [@Scalar NF (@npowf NF x (fdiv (@n1 NF) y))]).
Proof.
  destruct (expr_ex _ _ literal_ex) as [x H]. destruct (expr_ex _ _ literal_dot_ex) as [y H']. exists x, y.
  apply (c51_root (lit "12.375") (lit ".5") (AScalar x) (AScalar y)); auto; try solid_tac; apply scalar_outcome.
Qed.
End Examples.
End Examples.
