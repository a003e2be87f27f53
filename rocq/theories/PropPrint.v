(** * PropPrint: C42, C43, C44, C45, C47 - texts shown to the user. *)
From Coq Require Import List NArith ZArith Bool String Arith Lia SpecFloat Reals Lra.
From Flocq Require Import Core IEEE754.BinarySingleNaN.
From Verif Require Import Base BaseFacts F64 Num Types Print FloatFacts DecimalText DecimalFloat DecimalShort PrintFloat Toy.
Import ListNotations.
Local Open Scope string_scope.
Local Open Scope list_scope.

(** ** C42: padding *)
Lemma spaces_byte_len n : byte_len (spaces n) = n.
Proof. unfold spaces, byte_len. induction n as [|n IH]; [reflexivity|]. cbn [repeat fold_right]. now rewrite IH. Qed.
Lemma byte_len_app a b : byte_len (a ++ b) = byte_len a + byte_len b.
Proof. unfold byte_len. induction a as [|c a IH]; cbn [app fold_right]; [reflexivity|]. rewrite IH. lia. Qed.
Theorem c42_too_long s n : (n < Z.of_nat (byte_len s))%Z -> center_in_string s n = s.
Proof. intros H. unfold center_in_string. now rewrite (proj2 (Z.ltb_lt _ _) H). Qed.
Theorem c42_padded s n : (Z.of_nat (byte_len s) <= n)%Z -> exists left right,
  center_in_string s n = repeat 32%N left ++ s ++ repeat 32%N right /\
  (right = left \/ right = S left) /\ Z.of_nat (byte_len (center_in_string s n)) = n.
Proof.
  intros H. unfold center_in_string. rewrite (proj2 (Z.ltb_ge _ _) H).
  set (p := Z.to_nat (n - Z.of_nat (byte_len s))). exists (Nat.div p 2), (if Nat.even p then Nat.div p 2 else S (Nat.div p 2)).
  split; [reflexivity|]. split; [destruct (Nat.even p); auto|].
  rewrite !byte_len_app, !spaces_byte_len.
  pose proof (Nat.div_mod p 2 ltac:(lia)) as DM. pose proof (Nat.mod_upper_bound p 2 ltac:(lia)) as MB.
  destruct (Nat.even p) eqn:E.
  - apply Nat.even_spec in E as [q E]. assert (p mod 2 = 0) by (rewrite E, Nat.mul_comm; now apply Nat.mod_mul). lia.
  - assert (O : Nat.odd p = true) by (unfold Nat.odd; now rewrite E). apply Nat.odd_spec in O as [q O].
    assert (p mod 2 = 1) by (rewrite O, Nat.add_comm, Nat.mul_comm; now rewrite Nat.mod_add by lia). lia.
Qed.

(** ** C45: result sets in LaTeX *)
(** The entries, separated. *)
Fixpoint separated (sep : str) (l : list str) (s : str) : Prop :=
  match l with
  | [] => s = []
  | x :: t => match t with [] => s = x | _ => exists s', s = x ++ sep ++ s' /\ separated sep t s' end
  end.
Lemma join_separated sep l : separated sep l (join sep l).
Proof.
  induction l as [|x [|y l] IH]; [reflexivity|reflexivity|]. cbn [separated]. exists (join sep (y :: l)). split; [reflexivity|exact IH].
Qed.
Section Latex.
Context {N : Num} {En : Env}.
Theorem c45_no_value : values_latex (@nil (Value N)) = lit "No solutions".
Proof. reflexivity. Qed.
Theorem c45_one_value (v : Value N) : values_latex [v] = value_latex v.
Proof. reflexivity. Qed.
Theorem c45_values (vs : list (Value N)) : 2 <= List.length vs -> exists s,
  values_latex vs = lit "\left\{" ++ s ++ lit "\right\}" /\ separated (lit "; ") (map value_latex vs) s.
Proof.
  destruct vs as [|v [|w vs]]; cbn [List.length]; try lia. intros _. exists (join (lit "; ") (map value_latex (v :: w :: vs))).
  split; [reflexivity|apply join_separated].
Qed.
(** With a name in front. *)
Theorem c45_at_variable (vs : list (Value N)) n al : vs <> [] ->
  values_latex_at_var vs n al = (if str_eqb n (lit "pi") then lit "\pi" else n) ++ lit " " ++ (if al : bool then lit "&" else []) ++ lit "= " ++ values_latex vs.
Proof. destruct vs as [|v [|w vs]]; [congruence| |]; reflexivity. Qed.
Theorem c45_no_value_at_variable n al :
  values_latex_at_var (@nil (Value N)) n al = (if str_eqb n (lit "pi") then lit "\pi" else n) ++ lit ": No solutions".
Proof. reflexivity. Qed.

(** ** C47: the exported history *)
(** The decimal text of a number: no leading zero. *)
Definition decimal_text (s : str) (n : nat) : Prop := digits_of s (Z.of_nat n).
(** The lines of the steps, numbered from [k]. *)
Inductive numbered : nat -> list (Step N) -> str -> Prop :=
| numbered_nil k : numbered k [] []
| numbered_cons k step steps t rest : decimal_text t k -> numbered (S k) steps rest ->
    numbered k (step :: steps)
      ((step_latex step ++ lit " \tag{" ++ t ++ lit "}\label{eq:" ++ t ++ lit "} \\ \\ " ++ [10%N]) ++ rest).
Theorem c47_export h : exists body, numbered 1 h body /\
  export_tex h = lit "\documentclass[12pt, letterpaper]{article}" ++ [10%N] ++ lit "\usepackage{amsmath}" ++ [10%N]
    ++ lit "\usepackage[margin=1in]{geometry}" ++ [10%N] ++ lit "\allowdisplaybreaks" ++ [10%N]
    ++ lit "\begin{document}" ++ [10%N] ++ lit "\begin{align*}" ++ [10%N]
    ++ body ++ lit "\end{align*}" ++ [10%N] ++ lit "\end{document}".
Proof.
  unfold export_tex. assert (H : forall k, numbered (S k) h
    (List.concat (map (fun ix => step_latex_with_tag (snd ix) (Z.of_nat (fst ix) + 1)) (combine (seq k (List.length h)) h)))).
  { induction h as [|s h IH]; intros k; cbn [List.length seq combine map List.concat]; [constructor|].
    cbn [fst snd]. replace (step_latex_with_tag s (Z.of_nat k + 1)) with
      (step_latex s ++ lit " \tag{" ++ show_nonneg (Z.of_nat (S k)) ++ lit "}\label{eq:" ++ show_nonneg (Z.of_nat (S k)) ++ lit "} \\ \\ " ++ [10%N]).
    - constructor; [|apply IH]. unfold decimal_text. apply show_digits. lia.
    - assert (E : show_Z (Z.of_nat k + 1) = show_nonneg (Z.of_nat (S k))).
      { unfold show_Z. replace (Z.of_nat k + 1)%Z with (Z.of_nat (S k)) by lia. now rewrite (proj2 (Z.ltb_ge _ _)) by lia. }
      destruct s; cbn [step_latex_with_tag step_latex]; unfold tag; rewrite E; reflexivity. }
  eexists. split; [apply (H 0)|]. reflexivity.
Qed.
(** One line per step; different steps have different labels. *)
Theorem c47_labels_differ j k t : decimal_text t j -> decimal_text t k -> j = k.
Proof. intros (_ & _ & H & _) (_ & _ & G & _). lia. Qed.
Theorem c47_append h s : exists body t, decimal_text t (S (List.length h)) /\ numbered 1 h body /\
  numbered 1 (h ++ [s]) (body ++ step_latex s ++ lit " \tag{" ++ t ++ lit "}\label{eq:" ++ t ++ lit "} \\ \\ " ++ [10%N]).
Proof.
  set (t := show_nonneg (Z.of_nat (S (List.length h)))).
  assert (Ht : decimal_text t (S (List.length h))) by (apply show_digits; lia).
  assert (H : forall h k t, decimal_text t (k + List.length h) -> exists body, numbered k h body /\
    numbered k (h ++ [s]) (body ++ step_latex s ++ lit " \tag{" ++ t ++ lit "}\label{eq:" ++ t ++ lit "} \\ \\ " ++ [10%N])).
  { clear. induction h as [|x h IH]; intros k t Ht; cbn [List.length app] in *.
    - exists []. split; [constructor|]. rewrite Nat.add_0_r in Ht. pose proof (numbered_cons k s [] t [] Ht (numbered_nil _)) as G. now rewrite app_nil_r in G.
    - destruct (IH (S k) t) as (body & B1 & B2); [now rewrite Nat.add_succ_comm|].
      assert (Hk : decimal_text (show_nonneg (Z.of_nat k)) k) by (apply show_digits; lia).
      eexists. split; [apply (numbered_cons k x h _ _ Hk B1)|]. pose proof (numbered_cons k x (h ++ [s]) _ _ Hk B2) as G. rewrite app_assoc in G. exact G. }
  destruct (H h 1 t Ht) as (body & B1 & B2). exists body, t. auto.
Qed.
End Latex.

(** ** C44: formatted numbers *)
Section Floats.
Context {En : Env}.
Variable lm : Libm.
Local Instance NF : Num := F64 lm.

Definition finite (x : f64) : Prop := fvalid x = true /\ fis_finite x = true.
(** The number of decimals shown. *)
Notation D := (PREC - 2)%Z.
Notation P := (@pow10 NF D).
Lemma D_cases : D = 6%Z \/ D = 11%Z.
Proof. unfold PREC. destruct high_prec; auto. Qed.
Lemma P_spec : fvalid P = true /\ fis_finite P = true /\ fR P = IZR (10 ^ D).
Proof.
  destruct D_cases as [-> | ->].
  - assert (E : @pow10 NF 6 = S754_finite false 8589934592000000 (-33)) by (vm_compute; reflexivity). rewrite E. split; [reflexivity|]. split; [reflexivity|].
    unfold fR, SF2R, F2R. cbn. lra.
  - assert (E : @pow10 NF 11 = S754_finite false 6553600000000000 (-16)) by (vm_compute; reflexivity). rewrite E. split; [reflexivity|]. split; [reflexivity|].
    unfold fR, SF2R, F2R. cbn. lra.
Qed.

(** A number in scientific notation: mantissa with one digit, not 0, before the
    point, and exponent. *)
Definition scientific (mant ex : str) (x : f64) : Prop :=
  parse_f64 (mant ++ 101%N :: ex) = Some x /\
  (exists d fp : str, mant = (if fsign_neg x then [45%N] else []) ++ d ++ match fp with [] => [] | _ => 46%N :: fp end /\
     List.length d = 1 /\ all_digits d /\ d <> [48%N] /\ all_digits fp /\ last fp 49%N <> 48%N) /\
  exists neg ds, ex = (if neg : bool then [45%N] else []) ++ ds /\ ds <> [] /\ all_digits ds.

Lemma show_sci_shape s m e : fvalid (S754_finite s m e) = true -> exists mant ex,
  strip_plus (show_sci_f64 (S754_finite s m e)) = mant ++ 101%N :: ex /\ scientific mant ex (S754_finite s m e) /\
  ~ In 101%N mant /\ ~ In 101%N ex.
Proof.
  intros Hv. pose proof (show_sci_reads _ Hv eq_refl) as HR. cbn [show_sci_f64] in *. rewrite (fvalid_sign s false) in Hv.
  pose proof (shortest_spec m e Hv) as SS. destruct (shortest m e) as [c p]. destruct SS as (Hc & Hcan & _ & _).
  destruct (show_digits c ltac:(lia)) as (Dg & Hne & V & _ & Lo). unfold render_sci in *.
  assert (Ex : exists neg ds, forall z, z = (Z.of_nat (List.length (show_nonneg c)) - 1 + p)%Z -> show_Z z = (if neg : bool then [45%N] else []) ++ ds /\ ds <> [] /\ all_digits ds).
  { set (z := (Z.of_nat (List.length (show_nonneg c)) - 1 + p)%Z). exists (z <? 0)%Z, (show_nonneg (if (z <? 0)%Z then - z else z)). intros ? ->. unfold show_Z.
    destruct (Z.ltb_spec z 0); [destruct (show_digits (- z) ltac:(lia)) as (? & ? & _)|destruct (show_digits z ltac:(lia)) as (? & ? & _)]; auto. }
  destruct Ex as (neg & es & Ex). specialize (Ex _ eq_refl). set (ex := show_Z _) in *. destruct Ex as (Ex & Ene & Eds).
  assert (Nd : forall l, all_digits l -> ~ In 101%N l).
  { intros l Hl I. unfold all_digits in Hl. rewrite Forall_forall in Hl. apply Hl in I. discriminate. }
  assert (Nex : ~ In 101%N ex).
  { rewrite Ex. intros I. apply in_app_or in I as [I|I]; [destruct neg; cbn in I; intuition discriminate|now apply (Nd es)]. }
  set (ds := show_nonneg c) in *.
  assert (Hmod : (c mod 10 <> 0)%Z) by (destruct (Z.le_gt_cases 10 c); [auto|rewrite Z.mod_small; lia]).
  destruct ds as [|d fp] eqn:Eds'; [congruence|].
  assert (Dd : is_digit d = true) by now inversion Dg. assert (Df : all_digits fp) by now inversion Dg.
  assert (Ld : last (d :: fp) 49%N <> 48%N).
  { intros E. pose proof (last_digit (d :: fp) Dg ltac:(discriminate)) as LD. rewrite V, E in LD. change (digit_val 48%N) with 0%Z in LD. lia. }
  assert (D0 : d <> 48%N).
  { intros ->. destruct fp as [|x fp]; [cbn in Ld; congruence|]. cbn [List.length] in Lo. destruct Lo as [Lo|Lo]; [|discriminate].
    rewrite digits_val_cons in V. change (digit_val 48%N) with 0%Z in V. pose proof (digits_val_bound _ Df) as B. cbn [List.length] in B.
    replace (Z.of_nat (S (S (List.length fp))) - 1)%Z with (Z.of_nat (S (List.length fp))) in Lo by lia. unfold str, char in *. lia. }
  exists ((if s then [45%N] else []) ++ [d] ++ match fp with [] => [] | _ => 46%N :: fp end), ex.
  assert (Eq : strip_plus ((if s then [45%N] else [43%N]) ++ (match fp with [] => [d] | _ :: _ => d :: 46%N :: fp end) ++ [101%N] ++ ex) =
    ((if s then [45%N] else []) ++ [d] ++ match fp with [] => [] | _ => 46%N :: fp end) ++ 101%N :: ex).
  { destruct s; cbn [app strip_plus].
    - change (N.eqb 45 43) with false. cbv iota. destruct fp; reflexivity.
    - change (N.eqb 43 43) with true. cbv iota. destruct fp; reflexivity. }
  split; [exact Eq|]. split; [|split; [|exact Nex]].
  - split; [|split].
    + refine (eq_trans (f_equal parse_f64 (eq_sym Eq)) _). clear Eq. destruct s; [destruct fp; exact HR|]. cbn [app strip_plus] in *. change (N.eqb 43 43) with true. cbv iota.
      assert (Hd : forall t, parse_f64 (d :: t) = parse_unsigned false (d :: t)).
      { intros t. apply digit_bounds in Dd. cbn [parse_f64]. destruct (N.eqb_spec d 45); [subst; cbn in Dd; lia|]. destruct (N.eqb_spec d 43); [subst; cbn in Dd; lia|]. reflexivity. }
      destruct fp; cbn [app] in *; rewrite Hd; exact HR.
    + exists [d], fp. cbn [fsign_neg]. split; [reflexivity|]. split; [reflexivity|]. split; [now constructor|]. split; [congruence|]. split; [exact Df|].
      destruct fp as [|y fp]; [discriminate|]. intros E. apply Ld. cbn [last] in *. exact E.
    + exists neg, es. auto.
  - intros I. apply in_app_or in I as [I|I]; [destruct s; cbn in I; intuition discriminate|].
    change ([d] ++ match fp with [] => [] | _ => 46%N :: fp end) with (d :: match fp with [] => [] | _ => 46%N :: fp end) in I.
    destruct I as [I|I]; [subst; discriminate|]. destruct fp as [|y fp]; [destruct I|]. destruct I as [I|I]; [discriminate|]. now apply (Nd _ Df).
Qed.
Lemma before_app c a b : ~ In c a -> before c (a ++ c :: b) = a.
Proof.
  induction a as [|x a IH]; intros H; cbn [app before]; [now rewrite N.eqb_refl|].
  destruct (N.eqb_spec x c) as [->|]; [exfalso; apply H; now left|]. f_equal. apply IH. intros I. apply H. now right.
Qed.
Lemma after_app c a b : ~ In c a -> after c (a ++ c :: b) = Some b.
Proof.
  induction a as [|x a IH]; intros H; cbn [app after]; [now rewrite N.eqb_refl|].
  destruct (N.eqb_spec x c) as [->|]; [exfalso; apply H; now left|]. apply IH. intros I. apply H. now right.
Qed.
Lemma before_none c a : ~ In c a -> before c a = a.
Proof.
  induction a as [|x a IH]; intros H; cbn [before]; [reflexivity|].
  destruct (N.eqb_spec x c) as [->|]; [exfalso; apply H; now left|]. f_equal. apply IH. intros I. apply H. now right.
Qed.

(** The rounded number ([Value::round(PREC - 2)]). *)
Notation rounded x := (@round_num NF D x).
Lemma rounded_value x : value_round D (@Scalar NF x) = @Scalar NF (rounded x). Proof. reflexivity. Qed.

Lemma feqb_zero x : feqb x f0 = true <-> exists s, x = S754_zero s.
Proof. destruct x as [s|[]| |[] m e]; cbn; split; intros H; try discriminate; try (destruct H; discriminate); eauto. Qed.
Lemma format_zero x latex : feqb x f0 = true -> @round_and_format NF En x latex = lit "0".
Proof.
  intros H. apply feqb_zero in H as [s ->]. unfold round_and_format. cbv zeta.
  assert (E : rounded (S754_zero s) = S754_zero s).
  { destruct P_spec as (V & F & R). unfold round_num. change (@ndiv NF) with fdiv. change (@nround NF) with fround. change (@nmul NF) with fmul.
    destruct (@pow10 NF D) as [| | |sp mp ep]; try discriminate.
    - exfalso. unfold fR in R. cbn in R. destruct D_cases as [E|E]; rewrite E in R; cbn in R; lra.
    - assert (sp = false).
      { destruct sp; [|reflexivity]. exfalso. assert (fR (S754_finite true mp ep) < 0)%R by (apply F2R_lt_0; reflexivity). rewrite R in *. destruct D_cases as [E|E]; rewrite E in *; cbn in *; lra. }
      subst sp. now destruct s. }
  rewrite E. change (@neqb NF) with feqb. change (@n0 NF) with f0. change (feqb (S754_zero s) f0) with true. cbn [negb andb]. rewrite andb_false_r. destruct s; reflexivity.
Qed.
(** Any finite number whose rounded value is not 0: the text reads as it. *)
Theorem c44_reads x latex : finite x -> finite (rounded x) -> feqb (rounded x) f0 = false ->
  parse_f64 (@round_and_format NF En x latex) = Some (rounded x).
Proof.
  intros Hx [Hv Hf] H0. unfold round_and_format. cbv zeta. change (@neqb NF) with feqb. change (@n0 NF) with f0. rewrite H0. cbn [andb].
  now apply show_reads.
Qed.
(** Numbers that would be shown as 0 are shown in scientific notation. *)
Theorem c44_scientific x : finite x -> feqb x f0 = false -> feqb (rounded x) f0 = true -> exists mant ex,
  scientific mant ex x /\
  @round_and_format NF En x false = mant ++ lit "e" ++ ex /\
  @round_and_format NF En x true = mant ++ lit "\cdot 10^{" ++ ex ++ lit "}".
Proof.
  intros [Hv Hf] H0 H1. destruct x as [s|s| |s m e]; try discriminate. destruct (show_sci_shape s m e Hv) as (mant & ex & E & HS & N1 & N2).
  exists mant, ex. split; [exact HS|]. unfold round_and_format. cbv zeta. change (@neqb NF) with feqb. change (@n0 NF) with f0. rewrite H1, H0. cbn [andb negb].
  change (@nshow_sci NF) with show_sci_f64. rewrite E. split; [reflexivity|]. rewrite before_app, after_app, before_none by assumption. reflexivity.
Qed.
(** Zero, of either sign, is shown as 0. *)
Theorem c44_zero x latex : feqb x f0 = true -> @round_and_format NF En x latex = lit "0".
Proof. apply format_zero. Qed.
(** Nothing is shown as -0. *)
Theorem c44_never_minus_zero x latex : finite x -> @round_and_format NF En x latex <> lit "-0".
Proof.
  intros Hx E. destruct (feqb x f0) eqn:E0; [rewrite (format_zero x latex E0) in E; discriminate|].
  destruct (feqb (rounded x) f0) eqn:E1.
  - destruct (c44_scientific x Hx E0 E1) as (mant & ex & HS & T1 & T2). destruct HS as (_ & (d & fp & Em & Ld & _) & _).
    assert (L : forall b r, mant ++ b ++ r = lit "-0" -> 2 <= List.length b -> False).
    { intros b r H Hb. apply (f_equal (@List.length _)) in H. rewrite !app_length in H. cbn in H.
      assert (1 <= List.length mant) by (rewrite Em, !app_length; unfold str, char in *; lia).
      unfold str, char in *; lia. }
    destruct latex; [rewrite T2 in E; apply (L _ _ E); cbn; lia|]. rewrite T1 in E.
    assert (I : In 101%N (lit "-0")) by (rewrite <- E; apply in_or_app; right; now left). cbn in I. intuition discriminate.
  - unfold round_and_format in E. cbv zeta in E. change (@neqb NF) with feqb in E. change (@n0 NF) with f0 in E. rewrite E1 in E. cbn [andb] in E. change (@nshow NF) with show_f64 in E.
    assert (V : fvalid (rounded x) = true).
    { destruct Hx as [Hv _]. destruct P_spec as (V & _ & _). unfold round_num. apply fdiv_valid; [|exact V].
      pose proof (fmul_valid x P Hv V) as Hy. change (@nmul NF) with fmul. destruct (fis_finite (fmul x P)) eqn:Fy; [now apply fround_spec|].
      destruct (fmul x P) as [| | |]; try discriminate; reflexivity. }
    destruct (fis_finite (rounded x)) eqn:F.
    + pose proof (show_reads _ V F) as R. rewrite E in R. assert (G : parse_f64 (lit "-0") = Some (S754_zero true)) by reflexivity. rewrite G in R.
      assert (H : S754_zero true = rounded x) by congruence. rewrite <- H in E1. discriminate E1.
    + destruct (rounded x) as [|[]| |]; discriminate.
Qed.
(** The shown digits: the nearest multiple [M] of 10^-(PREC-2), up to the
    rounding error of one multiplication. *)
Theorem c44_nearest x : finite x -> (Rabs (fR x) * IZR (10 ^ D) <= IZR (10 ^ 15 - 1))%R -> exists M : Z,
  (Rabs (IZR M - fR x * IZR (10 ^ D)) <= / 2 + / 9007199254740992 * Rabs (fR x * IZR (10 ^ D)))%R /\
  (M <> 0%Z -> forall latex, plain_decimal (@round_and_format NF En x latex) (M <? 0)%Z (Z.abs M) D) /\
  (M = 0%Z -> feqb x f0 = false -> exists mant ex, scientific mant ex x /\
     @round_and_format NF En x false = mant ++ lit "e" ++ ex /\
     @round_and_format NF En x true = mant ++ lit "\cdot 10^{" ++ ex ++ lit "}").
Proof.
  intros Hx HB. destruct P_spec as (VP & FP & EP). destruct Hx as [Hv Hf].
  destruct (round_dec_spec x P D Hv Hf VP FP ltac:(destruct D_cases as [-> | ->]; lia) EP HB) as (Vr & Fr & M & BM & EM & CM).
  change (fdiv (fround (fmul x P)) P) with (rounded x) in *. exists M. split; [exact CM|].
  assert (Z0 : fR (rounded x) = 0%R <-> feqb (rounded x) f0 = true).
  { rewrite feqb_spec by (auto using f0_valid). rewrite fR_f0. tauto. }
  split.
  - intros HM latex. assert (H0 : feqb (rounded x) f0 = false).
    { destruct (feqb (rounded x) f0) eqn:E; [exfalso|reflexivity]. assert (fR (rounded x) = 0%R) as E0 by now apply Z0.
      assert (PT : (0 < IZR (10 ^ D))%R) by (apply IZR_lt; destruct D_cases as [-> | ->]; reflexivity).
      assert (B : (/ 1000000000000 <= Rabs (IZR M / IZR (10 ^ D)))%R).
      { unfold Rdiv. rewrite Rabs_mult, (Rabs_pos_eq (/ _)) by (apply Rlt_le, Rinv_0_lt_compat; lra). rewrite <- (Rmult_1_l (/ 1000000000000)).
        apply Rmult_le_compat; [lra|lra|rewrite <- abs_IZR; apply IZR_le; lia|]. apply Rinv_le; [lra|]. apply IZR_le. destruct D_cases as [-> | ->]; vm_compute; discriminate. }
      pose proof (RN_error (IZR M / IZR (10 ^ D))) as RE. rewrite <- EM, E0 in RE. rewrite Rminus_0_l, Rabs_Ropp in RE.
      assert (S : (bpow radix2 (-1022) <= / 1000000000000)%R).
      { apply Rle_trans with (bpow radix2 (-40)); [apply bpow_le; lia|]. change (-40)%Z with (- (40))%Z. rewrite bpow_opp. apply Rinv_le; [lra|]. rewrite <- (IZR_Zpower radix2) by lia. apply IZR_le. vm_compute. discriminate. }
      specialize (RE ltac:(lra)). lra. }
    unfold round_and_format. cbv zeta. change (@neqb NF) with feqb. change (@n0 NF) with f0. rewrite H0. cbn [andb]. change (@nshow NF) with show_f64.
    apply show_decimal15; auto. destruct D_cases as [-> | ->]; lia.
  - intros HM H0. apply c44_scientific; [split; assumption|exact H0|]. apply Z0. rewrite EM, HM. unfold Rdiv. rewrite Rmult_0_l. apply RN_0.
Qed.

(** ** C43: Unicode output *)
Definition ascii_line (s : str) : Prop := Forall (fun c => (c < 128)%N /\ c <> 10%N) s.
Lemma ascii_line_len s : ascii_line s -> byte_len s = List.length s.
Proof.
  intros H. induction H as [|c s [Hc _] H IH]; [reflexivity|]. change (byte_len (c :: s)) with (utf8_len c + byte_len s). rewrite IH.
  unfold utf8_len. now rewrite (proj2 (N.ltb_lt _ _) Hc).
Qed.
Lemma ascii_line_app a b : ascii_line a -> ascii_line b -> ascii_line (a ++ b).
Proof. intros. now apply Forall_app. Qed.
Lemma ascii_digits s : all_digits s -> ascii_line s.
Proof. intros H. eapply Forall_impl; [|exact H]. intros c Hc. apply digit_bounds in Hc. lia. Qed.
Ltac ascii_lit := repeat constructor; try reflexivity; discriminate.
Lemma ascii_render c p : (0 <= c)%Z -> ascii_line (render_dec c p).
Proof.
  intros H. destruct (render_dec_chars c p H) as [G _]. eapply Forall_impl; [|exact G]. intros x [Hx| ->]; [apply digit_bounds in Hx; lia|split; [reflexivity|discriminate]].
Qed.
Lemma ascii_show_Z z : ascii_line (show_Z z).
Proof.
  unfold show_Z. destruct (Z.ltb_spec z 0).
  - constructor; [split; [reflexivity|discriminate]|]. apply ascii_digits. now apply show_digits; lia.
  - apply ascii_digits. now apply show_digits.
Qed.
Lemma shortest_pos m e : (0 <= fst (shortest m e))%Z.
Proof.
  unfold shortest. pose proof (mag_ratio_pos m e) as H. destruct (mag_ratio m e) as [num den]. cbn [fst snd] in H.
  generalize 17 as f, 1%Z as n, (dec_exp num den) as k. induction f as [|f IH]; intros n k; cbn [search_digits].
  - pose proof (exact_dec_value m e) as G. destruct (exact_dec m e). cbn. lia.
  - destruct (find _ _) as [cp|] eqn:E; [|apply IH]. apply find_some in E as [E _]. apply candidates_nonneg in E; lia.
Qed.
Lemma ascii_show x : ascii_line (show_f64 x).
Proof.
  destruct x as [s|s| |s m e]; cbn [show_f64]; try (destruct s); try ascii_lit.
  - pose proof (shortest_pos m e) as H. destruct (shortest m e) as [c p]. apply ascii_line_app; [ascii_lit|now apply ascii_render].
  - pose proof (shortest_pos m e) as H. destruct (shortest m e) as [c p]. now apply ascii_render.
Qed.
Lemma ascii_show_sci x : ascii_line (show_sci_f64 x).
Proof.
  destruct x as [s|s| |s m e]; cbn [show_sci_f64]; try (destruct s); try ascii_lit.
  - pose proof (shortest_pos m e) as H. destruct (shortest m e) as [c p]. cbn [fst] in H. apply ascii_line_app; [ascii_lit|].
    unfold render_sci. destruct (show_digits c H) as (D0 & _). apply ascii_digits in D0. destruct (show_nonneg c) as [|d [|d2 t]]; inversion D0; subst;
      repeat apply ascii_line_app; try apply ascii_show_Z; try ascii_lit; constructor; auto. constructor; [split; [reflexivity|discriminate]|assumption].
  - pose proof (shortest_pos m e) as H. destruct (shortest m e) as [c p]. cbn [fst] in H. apply ascii_line_app; [ascii_lit|].
    unfold render_sci. destruct (show_digits c H) as (D0 & _). apply ascii_digits in D0. destruct (show_nonneg c) as [|d [|d2 t]]; inversion D0; subst;
      repeat apply ascii_line_app; try apply ascii_show_Z; try ascii_lit; constructor; auto. constructor; [split; [reflexivity|discriminate]|assumption].
Qed.
(** The text of an entry. *)
Definition text (x : f64) : str := @round_and_format NF En x false.
Lemma ascii_strip s : ascii_line s -> ascii_line (strip_plus s).
Proof. intros H. destruct s as [|c s]; [exact H|]. cbn [strip_plus]. destruct (N.eqb c 43); [now inversion H|exact H]. Qed.
Lemma ascii_text x : ascii_line (text x).
Proof.
  unfold text, round_and_format. cbv zeta. match goal with |- ascii_line (if ?b then _ else _) => destruct b end; [apply ascii_strip, ascii_show_sci|].
  match goal with |- ascii_line (if ?b then _ else _) => destruct b end.
  - repeat apply ascii_line_app; [|ascii_lit| |ascii_lit].
    + assert (B : forall c s, ascii_line s -> ascii_line (before c s)) by (intros c s H; induction H; cbn [before]; [constructor|]; destruct (N.eqb x0 c); constructor; auto).
      apply B, ascii_strip, ascii_show_sci.
    + assert (B : forall c s, ascii_line s -> ascii_line (before c s)) by (intros c s H; induction H; cbn [before]; [constructor|]; destruct (N.eqb x0 c); constructor; auto).
      assert (A : forall c s r, ascii_line s -> after c s = Some r -> ascii_line r).
      { intros c s r H. induction H as [|y s Hy H IH]; cbn [after]; [discriminate|]. destruct (N.eqb y c); [intros G; injection G as <-; exact H|exact IH]. }
      destruct (after _ _) as [r|] eqn:Ea; [|constructor]. apply B. apply A in Ea; [exact Ea|]. apply ascii_strip, ascii_show_sci.
  - match goal with |- ascii_line (if ?b then _ else _) => destruct b end; [|apply ascii_show]. pose proof (ascii_show (rounded x)) as H. change (@nshow NF) with show_f64.
    destruct (show_f64 _); [constructor|now inversion H].
Qed.

(** An entry with blanks around it, [w] wide. *)
Definition padded (w : nat) (t s : str) : Prop := exists left right,
  s = repeat 32%N left ++ t ++ repeat 32%N right /\ (right = left \/ right = S left) /\ List.length s = w.
Lemma center_padded t w : ascii_line t -> List.length t <= w -> padded w t (center_in_string t (Z.of_nat w)).
Proof.
  intros Ht Hw. pose proof (ascii_line_len t Ht) as E. destruct (c42_padded t (Z.of_nat w)) as (l & r & H1 & H2 & H3); [lia|].
  exists l, r. split; [exact H1|]. split; [exact H2|]. rewrite H1 in *. rewrite !byte_len_app in H3.
  change (repeat 32%N ?n) with (spaces n) in *. rewrite !spaces_byte_len in H3. rewrite !app_length. unfold spaces. rewrite !repeat_length. lia.
Qed.
Lemma padded_ascii w t s : ascii_line t -> padded w t s -> ascii_line s.
Proof.
  intros Ht (l & r & -> & _). repeat apply ascii_line_app; auto; clear; [induction l|induction r]; cbn; constructor; auto; split; reflexivity || discriminate.
Qed.

(** The name in front of the middle line, as many blanks as it has bytes in
    front of the others. *)
Definition name_text (name : option str) : str := match name with Some n => n ++ lit " = " | None => [] end.
Definition front (name : option str) (rows i : nat) : str :=
  if Nat.eqb (S i) ((rows + 1) / 2) then name_text name else repeat 32%N (byte_len (name_text name)).
(** Top, bottom and middle piece of a bracket. *)
Definition piece (rows i : nat) (top bottom mid : char) : char :=
  if Nat.eqb i 0 then top else if Nat.eqb (S i) rows then bottom else mid.

Lemma pretty_line_eq name rows i tl_ bl ml tr br mr body : i < rows ->
  pretty_line name rows i tl_ bl ml tr br mr body =
  (front name rows i ++ [piece rows i tl_ bl ml] ++ body ++ [piece rows i tr br mr]) ++ (if Nat.eqb (S i) rows then [] else nl).
Proof.
  intros Hi. unfold pretty_line, front, piece, middle. cbv zeta. change (prefix name) with (name_text name).
  assert (E1 : Nat.eqb i (rows - 1) = Nat.eqb (S i) rows) by (destruct (Nat.eqb_spec i (rows - 1)), (Nat.eqb_spec (S i) rows); auto; lia).
  assert (G : 1 <= (rows + 1) / 2) by (apply Nat.div_le_lower_bound; lia).
  assert (E2 : Nat.eqb i ((rows + 1) / 2 - 1) = Nat.eqb (S i) ((rows + 1) / 2)).
  { destruct (Nat.eqb_spec i ((rows + 1) / 2 - 1)), (Nat.eqb_spec (S i) ((rows + 1) / 2)); auto; lia. }
  rewrite E1, E2, <- !app_assoc. destruct name; [|cbn [name_text]; rewrite andb_false_r; destruct (Nat.eqb (S i) ((rows + 1) / 2)); reflexivity].
  rewrite andb_true_r. destruct (Nat.eqb (S i) ((rows + 1) / 2)); reflexivity.
Qed.

(** Lines [f 0], ..., [f (n-1)] end with a newline except the last. *)
Lemma concat_lines (f : nat -> str) n k : List.concat (map (fun i => f i ++ (if Nat.eqb (S i) (k + n) then [] else nl)) (seq k n)) = join nl (map f (seq k n)).
Proof.
  revert k. induction n as [|n IH]; intros k; [reflexivity|]. cbn [seq map List.concat].
  specialize (IH (S k)). rewrite Nat.add_succ_comm in IH. rewrite IH. destruct n as [|n].
  - cbn [seq map join]. rewrite (proj2 (Nat.eqb_eq (S k) (k + 1))) by lia. now rewrite !app_nil_r.
  - rewrite (proj2 (Nat.eqb_neq (S k) (k + S (S n)))) by lia. cbn [seq map]. cbn [join]. now rewrite <- app_assoc.
Qed.
Lemma combine_seq_map {A B} (g : nat * A -> B) (l : list A) d k :
  map g (combine (seq k (List.length l)) l) = map (fun i => g (i, nth (i - k) l d)) (seq k (List.length l)).
Proof.
  revert k. induction l as [|x l IH]; intros k; [reflexivity|]. cbn [List.length seq combine map]. f_equal.
  - now rewrite Nat.sub_diag.
  - rewrite IH. apply map_ext_in. intros i Hi. apply in_seq in Hi. replace (i - k) with (S (i - S k)) by lia. reflexivity.
Qed.

Lemma max_list_spec l w : max_list l = Some w -> In w l /\ Forall (fun x => x <= w) l.
Proof.
  destruct l as [|x l]; [discriminate|]. cbn [max_list]. intros H. injection H as <-.
  assert (G : forall l x, let w := fold_left Nat.max l x in (w = x \/ In w l) /\ x <= w /\ Forall (fun y => y <= w) l).
  { clear. induction l as [|y l IH]; intros x; cbn [fold_left]; [cbn; auto|]. destruct (IH (Nat.max x y)) as (G1 & G2 & G3). cbv zeta in *.
    set (w := fold_left Nat.max l (Nat.max x y)) in *. split; [|split; [lia|constructor; [lia|exact G3]]].
    destruct G1 as [G1|G1]; [|now right; right]. destruct (Nat.max_spec x y) as [[_ E]|[_ E]]; rewrite E in G1; [right; now left|now left]. }
  destruct (G l x) as (G1 & G2 & G3). cbv zeta in *. split; [destruct G1 as [->|G1]; [now left|now right]|now constructor].
Qed.
Lemma max_list_some l : l <> [] -> exists w, max_list l = Some w.
Proof. destruct l; [congruence|]. cbn. eauto. Qed.

(** The layout: line [i] of [rows] lines. *)
Definition line (name : option str) (rows i : nat) (tl_ bl ml tr br mr : char) (body : str) : str :=
  front name rows i ++ [piece rows i tl_ bl ml] ++ body ++ [piece rows i tr br mr].

Theorem c43_vector_layout {E} name (l : list f64) : l <> [] -> exists w lines,
  @pretty_print NF En E name (@Vector NF l) = Ok (join [10%N] lines) /\ List.length lines = List.length l /\
  In w (map (fun x => List.length (text x)) l) /\
  forall i x, nth_error l i = Some x -> exists body, padded w (text x) body /\
    nth_error lines i = Some (line name (List.length l) i 9115%N 9117%N 9116%N 9118%N 9120%N 9119%N body).
Proof.
  intros Hne. unfold pretty_print. change (map (fun x : @T NF => @round_and_format NF En x false) l) with (map text l).
  destruct (max_list_some (map byte_len (map text l))) as [w Hw]; [now destruct l|].
  destruct (max_list_spec _ _ Hw) as [W1 W2]. rewrite Hw. cbn [unwrap bind].
  assert (EL : map byte_len (map text l) = map (fun x => List.length (text x)) l).
  { rewrite map_map. apply map_ext. intros x. apply ascii_line_len, ascii_text. }
  rewrite EL in W1, W2.
  set (body := fun i => center_in_string (nth i (map text l) []) (Z.of_nat w)).
  exists w, (map (fun i => line name (List.length l) i 9115%N 9117%N 9116%N 9118%N 9120%N 9119%N (body i)) (seq 0 (List.length l))).
  split; [|split; [now rewrite map_length, seq_length|split; [exact W1|]]].
  - f_equal. rewrite (combine_seq_map _ (map text l) []). rewrite (map_length text l).
    change (join [10%N]) with (join nl). rewrite <- (concat_lines (fun i => line name (List.length l) i 9115%N 9117%N 9116%N 9118%N 9120%N 9119%N (body i)) (List.length l) 0). f_equal.
    apply map_ext_in. intros i Hi. apply in_seq in Hi. cbn [fst snd]. rewrite Nat.sub_0_r. now rewrite pretty_line_eq by lia.
  - intros i x Hx. exists (body i). assert (Hi : i < List.length l) by (apply nth_error_Some; congruence).
    assert (Hn : nth i (map text l) [] = text x) by (apply nth_error_nth; now rewrite nth_error_map, Hx). split.
    + unfold body. rewrite Hn. apply center_padded; [apply ascii_text|]. rewrite Forall_forall in W2. apply W2. apply in_map_iff. exists x. split; [reflexivity|]. now apply nth_error_In in Hx.
    + rewrite nth_error_map, (nth_error_nth' _ 0) by now rewrite seq_length. now rewrite seq_nth by assumption.
Qed.
Lemma padded_len w t s : padded w t s -> List.length s = w.
Proof. now intros (l & r & _ & _ & H). Qed.

Theorem c43_matrix_layout {E} name (m : list (list f64)) r k : 0 < r -> 0 < k -> List.length m = r -> Forall (fun row => List.length row = k) m -> exists w lines,
  @pretty_print NF En E name (@Matrix NF m) = Ok (join [10%N] lines) /\ List.length lines = r /\
  In w (map (fun x => List.length (text x)) (List.concat m)) /\
  forall i row, nth_error m i = Some row -> exists cells, Forall2 (padded w) (map text row) cells /\
    nth_error lines i = Some (line name r i 9121%N 9123%N 9122%N 9124%N 9126%N 9125%N (join (lit " ") cells)).
Proof.
  intros Hr Hk Hm Hrows. unfold pretty_print.
  assert (E1 : mapM (fun row : list f64 => do r0 <- idx m 0; mapM (fun j => do x <- idx row j; Ok (@round_and_format NF En x false)) (seq 0 (List.length r0))) m = @Ok E _ (map (map text) m)).
  { destruct m as [|r0 m']; [cbn in Hm; lia|]. set (mm := r0 :: m') in *. assert (Hr0 : List.length r0 = k) by now inversion Hrows.
    change (idx mm 0) with (@Ok E _ r0). cbn [bind]. rewrite Hr0. clearbody mm. clear -Hrows. induction Hrows as [|row mm Hrow Hrows IH]; [reflexivity|]. cbn [mapM map]. 
    assert (Er : mapM (fun j => do x <- idx row j; Ok (@round_and_format NF En x false)) (seq 0 k) = @Ok E _ (map text row)).
    { rewrite <- Hrow. clear. assert (G : forall pre, mapM (fun j => do x <- idx (pre ++ row) j; Ok (@round_and_format NF En x false)) (seq (List.length pre) (List.length row)) = @Ok E _ (map text row)).
      { induction row as [|x row IH]; intros pre; [reflexivity|]. cbn [List.length seq mapM map].
        assert (Ei : idx (pre ++ x :: row) (List.length pre) = @Ok E _ x) by (unfold idx; rewrite nth_error_app2, Nat.sub_diag by lia; reflexivity).
        rewrite Ei. cbn [bind]. specialize (IH (pre ++ [x])). rewrite <- app_assoc in IH. cbn [app] in IH. rewrite app_length in IH. cbn [List.length] in IH. rewrite Nat.add_comm in IH. cbn [Nat.add] in IH.
        rewrite IH. reflexivity. }
      apply (G []). }
    rewrite Er. cbn [bind]. rewrite IH. reflexivity. }
  change (@T NF) with f64 in *. rewrite E1. cbn [bind].
  assert (E2 : exists ws, mapM (fun r => unwrap (max_list (map byte_len r))) (map (map text) m) = @Ok E _ ws /\ 
     Forall2 (fun row w => In w (map (fun x => List.length (text x)) row) /\ Forall (fun x => List.length (text x) <= w) row) m ws).
  { clear -Hrows Hk. induction Hrows as [|row m Hrow Hrows IH]; [exists []; split; [reflexivity|constructor]|].
    destruct IH as (ws & I1 & I2). destruct (max_list_some (map byte_len (map text row))) as [w Hw]; [destruct row; [cbn in Hrow; lia|discriminate]|].
    exists (w :: ws). cbn [map mapM]. rewrite Hw. cbn [unwrap bind]. rewrite I1. split; [reflexivity|]. constructor; [|exact I2].
    destruct (max_list_spec _ _ Hw) as [W1 W2].
    assert (EL : map byte_len (map text row) = map (fun x => List.length (text x)) row).
    { rewrite map_map. apply map_ext. intros x. apply ascii_line_len, ascii_text. }
    rewrite EL in *. split; [exact W1|]. apply Forall_map in W2. exact W2. }
  destruct E2 as (ws & E2 & HW). rewrite E2. cbn [bind].
  destruct (max_list_some ws) as [w Hw]; [inversion HW; subst; [cbn in Hr; lia|discriminate]|]. rewrite Hw. cbn [unwrap bind].
  destruct (max_list_spec _ _ Hw) as [W1 W2].
  assert (WI : In w (map (fun x => List.length (text x)) (List.concat m))).
  { clear -HW W1. induction HW as [|row w' m ws [H1 _] HW IH]; [destruct W1|]. cbn [List.concat]. rewrite map_app. apply in_or_app. destruct W1 as [->|W1]; [now left|right; auto]. }
  assert (WA : Forall (Forall (fun x => List.length (text x) <= w)) m).
  { clear -HW W2. induction HW as [|row w' m ws [_ H1] HW IH]; constructor; inversion W2; subst; auto. eapply Forall_impl; [|exact H1]. cbn. intros. lia. }
  set (body := fun i => join (lit " ") (map (fun s => center_in_string s (Z.of_nat w)) (nth i (map (map text) m) []))).
  exists w, (map (fun i => line name r i 9121%N 9123%N 9122%N 9124%N 9126%N 9125%N (body i)) (seq 0 r)).
  split; [|split; [now rewrite map_length, seq_length|split; [exact WI|]]].
  - f_equal. rewrite (combine_seq_map _ (map (map text) m) []). rewrite (map_length (map text) m), Hm.
    change (join [10%N]) with (join nl). rewrite <- (concat_lines (fun i => line name r i 9121%N 9123%N 9122%N 9124%N 9126%N 9125%N (body i)) r 0). f_equal.
    apply map_ext_in. intros i Hi. apply in_seq in Hi. cbn [fst snd]. rewrite Nat.sub_0_r. now rewrite pretty_line_eq by lia.
  - intros i row Hrow. assert (Hi : i < r) by (rewrite <- Hm; apply nth_error_Some; congruence).
    assert (Hn : nth i (map (map text) m) [] = map text row) by (apply nth_error_nth; now rewrite nth_error_map, Hrow).
    exists (map (fun s => center_in_string s (Z.of_nat w)) (map text row)). split.
    + apply nth_error_In in Hrow. rewrite Forall_forall in WA. specialize (WA row Hrow). clear -WA. induction WA; cbn; constructor; auto. apply center_padded; [apply ascii_text|assumption].
    + rewrite nth_error_map, (nth_error_nth' _ 0) by now rewrite seq_length. rewrite seq_nth by assumption. cbn [option_map Nat.add]. unfold body. now rewrite Hn.
Qed.

(** Vectors and matrices with at least one entry; their number of rows. *)
Definition has_rows (v : Value NF) (rows : nat) : Prop :=
  match v with
  | Vector l => l <> [] /\ List.length l = rows
  | Matrix m => exists k, 0 < rows /\ 0 < k /\ List.length m = rows /\ Forall (fun row => List.length row = k) m
  | Scalar _ => False
  end.
Lemma byte_len_ge s : List.length s <= byte_len s.
Proof.
  induction s as [|c s IH]; [cbn; lia|]. change (byte_len (c :: s)) with (utf8_len c + byte_len s). cbn [List.length].
  assert (1 <= utf8_len c) by (unfold utf8_len; destruct (N.ltb c 128), (N.ltb c 2048), (N.ltb c 65536); lia). lia.
Qed.
Lemma join_cells w ts cells : Forall ascii_line ts -> Forall2 (padded w) ts cells -> ts <> [] ->
  List.length (join (lit " ") cells) = List.length ts * w + (List.length ts - 1) /\ ascii_line (join (lit " ") cells).
Proof.
  intros Ha H Hne. induction H as [|t c ts cells Hc H IH]; [congruence|]. inversion Ha as [|? ? Ha1 Ha2]; subst.
  pose proof (padded_len _ _ _ Hc) as L. pose proof (padded_ascii _ _ _ Ha1 Hc) as A.
  destruct H as [|t2 c2 ts cells Hc2 H].
  - cbn [join List.length]. split; [lia|exact A].
  - destruct IH as [I1 I2]; [assumption|discriminate|]. change (join (lit " ") (c :: c2 :: cells)) with (c ++ lit " " ++ join (lit " ") (c2 :: cells)).
    split.
    + rewrite !app_length, I1. change (List.length (lit " ")) with 1. cbn [List.length]. lia.
    + repeat apply ascii_line_app; [exact A|ascii_lit|exact I2].
Qed.
Lemma line_shape name rows i tl_ bl ml tr br mr body W :
  List.length body = W -> List.length (line name rows i tl_ bl ml tr br mr body) +
    (if Nat.eqb (S i) ((rows + 1) / 2) then byte_len (name_text name) - List.length (name_text name) else 0) = byte_len (name_text name) + 2 + W.
Proof.
  intros H. unfold line, front. pose proof (byte_len_ge (name_text name)). rewrite !app_length. cbn [List.length].
  destruct (Nat.eqb _ _); [|rewrite repeat_length]; unfold str, char in *; lia.
Qed.
Lemma in_repeat {A} (x y : A) n : In y (repeat x n) -> y = x.
Proof. intros H. now apply repeat_spec in H. Qed.
Lemma line_no_newline name rows i tl_ bl ml tr br mr body : ascii_line body -> ~ In 10%N (name_text name) ->
  ~ In 10%N [tl_; bl; ml; tr; br; mr] -> ~ In 10%N (line name rows i tl_ bl ml tr br mr body).
Proof.
  intros Hb Hn Hc I. unfold line, front in I. apply in_app_or in I as [I|I].
  - destruct (Nat.eqb _ _); [now apply Hn|]. apply in_repeat in I. discriminate.
  - apply in_app_or in I as [[I|[]]|I].
    + apply Hc. unfold piece in I. destruct (Nat.eqb i 0), (Nat.eqb (S i) rows); subst; cbn; auto.
    + apply in_app_or in I as [I|[I|[]]].
      * unfold ascii_line in Hb. rewrite Forall_forall in Hb. apply Hb in I. tauto.
      * apply Hc. unfold piece in I. destruct (Nat.eqb i 0), (Nat.eqb (S i) rows); subst; cbn; auto 8.
Qed.
(** All lines are equally wide, but for the one with the name: it is too narrow
    by the number of bytes of the name beyond one per character. *)
Theorem c43_widths {E} name (v : Value NF) rows : has_rows v rows -> ~ In 10%N (name_text name) -> exists W lines,
  @pretty_print NF En E name v = Ok (join [10%N] lines) /\ List.length lines = rows /\
  forall i ln, nth_error lines i = Some ln -> ~ In 10%N ln /\
    List.length ln + (if Nat.eqb (S i) ((rows + 1) / 2) then byte_len (name_text name) - List.length (name_text name) else 0) = W.
Proof.
  intros Hv Hn. destruct v as [m|l|x]; [| |destruct Hv]; change (@T NF) with f64 in *.
  - destruct Hv as (k & Hr & Hk & Hm & Hrows). destruct (@c43_matrix_layout E name m rows k Hr Hk Hm Hrows) as (w & lines & E1 & E2 & _ & H).
    exists (byte_len (name_text name) + 2 + (k * w + (k - 1))), lines. split; [exact E1|]. split; [exact E2|]. intros i ln Hln.
    destruct (nth_error m i) as [row|] eqn:Er.
    + destruct (H i row Er) as (cells & Hc & Hl). assert (ln = line name rows i 9121%N 9123%N 9122%N 9124%N 9126%N 9125%N (join (lit " ") cells)) as -> by congruence.
      assert (Lr : List.length row = k) by (rewrite Forall_forall in Hrows; apply Hrows; now apply nth_error_In in Er).
      assert (A : Forall ascii_line (map text row)) by (apply Forall_map, Forall_forall; intros; apply ascii_text).
      destruct (join_cells w (map text row) cells A Hc) as [J1 J2]; [destruct row; [cbn in Lr; lia|discriminate]|]. replace (List.length (map text row)) with k in J1 by (rewrite map_length; symmetry; exact Lr).
      split; [apply line_no_newline; auto; cbn; intuition discriminate|now apply line_shape].
    + apply nth_error_None in Er. assert (nth_error lines i = None); [|congruence]. apply nth_error_None. rewrite E2, <- Hm. exact Er.
  - destruct Hv as [Hne Hl]. destruct (@c43_vector_layout E name l Hne) as (w & lines & E1 & E2 & _ & H).
    exists (byte_len (name_text name) + 2 + w), lines. split; [exact E1|]. split; [exact (eq_trans E2 Hl)|]. intros i ln Hln.
    destruct (nth_error l i) as [x|] eqn:Er.
    + destruct (H i x Er) as (body & Hb & Hl'). assert (ln = line name (List.length l) i 9115%N 9117%N 9116%N 9118%N 9120%N 9119%N body) as -> by congruence.
      split; [apply line_no_newline; auto; [|cbn; intuition discriminate]|rewrite <- Hl; apply line_shape; now apply padded_len in Hb].
      eapply padded_ascii; [apply ascii_text|exact Hb].
    + apply nth_error_None in Er. assert (nth_error lines i = None); [|congruence]. apply nth_error_None. rewrite E2. exact Er.
Qed.
(** [as_unicode]: one line per row, all equally wide. *)
Theorem c43_as_unicode {E} (v : Value NF) rows : has_rows v rows -> exists W lines,
  @as_unicode NF En E v = Ok (join [10%N] lines) /\ List.length lines = rows /\ Forall (fun ln => ~ In 10%N ln /\ List.length ln = W) lines.
Proof.
  intros Hv. destruct (@c43_widths E None v rows Hv) as (W & lines & E1 & E2 & H); [intros []|]. exists W, lines. split; [exact E1|]. split; [exact E2|].
  apply Forall_forall. intros ln I. apply In_nth_error in I as [i I]. destruct (H i ln I) as [H1 H2]. split; [exact H1|].
  change (byte_len (name_text None) - List.length (name_text None)) with 0 in H2. destruct (Nat.eqb _ _); unfold str, char in *; lia.
Qed.
(** The same with an ASCII name that has no Unicode symbol. *)
Theorem c43_as_unicode_at_var {E} (v : Value NF) rows n : has_rows v rows -> ascii_line n -> ~ In n (map fst var_symbols) -> exists W lines,
  @as_unicode_at_var NF En E v n = Ok (join [10%N] lines) /\ List.length lines = rows /\ Forall (fun ln => ~ In 10%N ln /\ List.length ln = W) lines.
Proof.
  intros Hv Hn Ht. assert (Hu : unicode_name n = n).
  { unfold unicode_name. destruct (find _ _) as [p|] eqn:Ef; [|reflexivity]. apply find_some in Ef as [F1 F2]. apply str_eqb_eq in F2. exfalso. apply Ht. rewrite F2. now apply in_map. }
  assert (Ha : ascii_line (name_text (Some n))) by (apply ascii_line_app; [exact Hn|ascii_lit]).
  destruct (@c43_widths E (Some n) v rows Hv) as (W & lines & E1 & E2 & H).
  { intros I. unfold ascii_line in Ha. rewrite Forall_forall in Ha. apply Ha in I. tauto. }
  exists W, lines. unfold as_unicode_at_var. rewrite Hu. split; [exact E1|]. split; [exact E2|].
  apply Forall_forall. intros ln I. apply In_nth_error in I as [i I]. destruct (H i ln I) as [H1 H2]. split; [exact H1|].
  rewrite (ascii_line_len _ Ha), Nat.sub_diag in H2. destruct (Nat.eqb _ _); unfold str, char in *; lia.
Qed.
(** Finding: with a name that has a symbol (4 bytes, one character) the line
    with the name is three columns narrower than the others. *)
Theorem c43_symbol_misaligned {E} (v : Value NF) rows n : has_rows v rows -> In n (map fst var_symbols) -> exists W lines,
  @as_unicode_at_var NF En E v n = Ok (join [10%N] lines) /\ List.length lines = rows /\
  forall i ln, nth_error lines i = Some ln -> ~ In 10%N ln /\ List.length ln = if Nat.eqb (S i) ((rows + 1) / 2) then W else W + 3.
Proof.
  intros Hv Hn. assert (Hu : exists c, unicode_name n = [c] /\ utf8_len c = 4 /\ c <> 10%N).
  { unfold unicode_name. apply in_map_iff in Hn as ([n' c'] & E1 & E2). cbn in E1. subst n'.
    destruct (find _ _) as [p|] eqn:Ef.
    - apply find_some in Ef as [F1 _]. exists (snd p). split; [reflexivity|].
      assert (A : forallb (fun q => Nat.eqb (utf8_len (snd q)) 4 && negb (N.eqb (snd q) 10)) var_symbols = true) by (vm_compute; reflexivity).
      rewrite forallb_forall in A. apply A in F1. apply andb_true_iff in F1 as [F1 F2]. apply Nat.eqb_eq in F1. apply negb_true_iff, N.eqb_neq in F2. auto.
    - exfalso. apply (find_none _ _ Ef) in E2. cbn in E2. now rewrite str_eqb_refl in E2. }
  destruct Hu as (c & Hu & Hc & H10).
  destruct (@c43_widths E (Some [c]) v rows Hv) as (W & lines & E1 & E2 & H).
  { cbn. intros [I|I]; [congruence|]. intuition discriminate. }
  assert (Hb : byte_len (name_text (Some [c])) - List.length (name_text (Some [c])) = 3).
  { cbn [name_text]. rewrite byte_len_app, app_length. change (byte_len [c]) with (utf8_len c + 0). rewrite Hc. reflexivity. }
  assert (HW : 3 <= W \/ lines = []).
  { destruct lines as [|ln lines]; [now right|left]. destruct (H 0 ln eq_refl) as [_ H2]. pose proof (byte_len_ge (name_text (Some [c]))). rewrite Hb in H2.
    assert (rows >= 1) by (cbn in E2; lia). destruct (Nat.eqb _ _) eqn:E0; [lia|]. 
    assert (rows >= 3) by (destruct rows as [|[|[|rows]]]; cbn in E0; try discriminate; lia).
    assert (L : exists ln', nth_error (ln :: lines) ((rows + 1) / 2 - 1) = Some ln').
    { destruct (nth_error (ln :: lines) ((rows + 1) / 2 - 1)) eqn:En'; [eauto|]. apply nth_error_None in En'. unfold str, char in *. rewrite E2 in En'.
      assert ((rows + 1) / 2 < rows + 1) by (apply Nat.div_lt; lia). lia. }
    destruct L as [ln' L]. destruct (H _ _ L) as [_ H9]. rewrite Hb in H9.
    assert (G : 1 <= (rows + 1) / 2) by (apply Nat.div_le_lower_bound; lia).
    rewrite (proj2 (Nat.eqb_eq _ _)) in H9 by lia. lia. }
  exists (W - 3), lines. unfold as_unicode_at_var. rewrite Hu. split; [exact E1|]. split; [exact E2|].
  intros i ln I. destruct HW as [HW| ->]; [|destruct i; discriminate]. destruct (H i ln I) as [H1 H2]. split; [exact H1|]. rewrite Hb in H2. destruct (Nat.eqb _ _); unfold str, char in *; lia.
Qed.
(** A scalar is one line. *)
Theorem c43_scalar {E} x : @as_unicode NF En E (@Scalar NF x) = Ok (text x) /\
  forall n, @as_unicode_at_var NF En E (@Scalar NF x) n = Ok (unicode_name n ++ lit " = " ++ text x).
Proof. split; [reflexivity|]. intros n. unfold as_unicode_at_var, pretty_print, prefix. now rewrite <- app_assoc. Qed.
(** Nothing to show: the crate panics. *)
Theorem c43_empty {E} name : @pretty_print NF En E name (@Vector NF []) = Panic /\ @pretty_print NF En E name (@Matrix NF []) = Panic /\
  forall m, @pretty_print NF En E name (@Matrix NF ([] :: m)) = Panic.
Proof.
  split; [reflexivity|]. split; [reflexivity|]. intros m. unfold pretty_print.
  assert (G : forall l : list (list f64), mapM (fun r : list f64 => do r0 <- idx ([] :: m) 0; mapM (fun j => do x <- idx r j; Ok (@round_and_format NF En x false)) (seq 0 (List.length r0))) l = @Ok E _ (map (fun _ => []) l)).
  { induction l as [|r l IH]; [reflexivity|]. cbn [mapM map]. rewrite IH. reflexivity. }
  change (@T NF) with f64. rewrite G. reflexivity.
Qed.
End Floats.

Module Examples.
Local Existing Instance NT.
Local Existing Instance ET.
Example center_case : center_in_string (lit "ab") 5 = lit " ab  ". Proof. reflexivity. Qed.
Example numbers :
  round_and_format (f_of_dec false 12345678 (-7)) false = lit "1.234568" /\
  round_and_format (f_of_dec true 1 (-7)) false = lit "-1e-7" /\
  round_and_format (f_of_dec true 1 (-7)) true = lit "-1\cdot 10^{-7}" /\
  round_and_format (S754_zero true) false = lit "0".
Proof. repeat split; vm_compute; reflexivity. Qed.
(** c44_nearest applies to 1.2345678. *)
Example nearest_case : finite (f_of_dec false 12345678 (-7)).
Proof. split; vm_compute; reflexivity. Qed.
(** Findings: large numbers.  The integer 576460752305 is shown as
    576460752304.9999, and 10^303 as infinite. *)
Example integer_altered : round_and_format (num 576460752305) false = lit "576460752304.9999".
Proof. vm_compute. reflexivity. Qed.
Example large_is_inf : round_and_format (f_of_dec false 1 303) false = lit "inf".
Proof. vm_compute. reflexivity. Qed.
Example vector_case : @as_unicode NT ET EvalError (ve [1; -20; 3]%Z) =
  Ok (join [10%N] [[9115%N] ++ lit " 1 " ++ [9118%N]; [9116%N] ++ lit "-20" ++ [9119%N]; [9117%N] ++ lit " 3 " ++ [9120%N]]).
Proof. vm_compute. reflexivity. Qed.
Example vector_has_rows : @has_rows toy (ve [1; -20; 3]%Z) 3. Proof. split; [discriminate|reflexivity]. Qed.
Example matrix_has_rows : @has_rows toy (ma [[1; 2; 3]; [4; 5; 6]]%Z) 2. Proof. exists 3. repeat split; try lia. repeat constructor. Qed.
Example greek : @as_unicode_at_var NT ET EvalError (ve [1; 2]%Z) (lit "\alpha") =
  Ok (join [10%N] [[120572%N] ++ lit " = " ++ [9115%N] ++ lit "1" ++ [9118%N]; lit "       " ++ [9117%N] ++ lit "2" ++ [9120%N]]).
Proof. vm_compute. reflexivity. Qed.
End Examples.
