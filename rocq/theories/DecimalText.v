(** * DecimalText: decimal texts and the integers they stand for (proofs about
    the text level of F64.v). *)
From Coq Require Import List NArith ZArith Bool Lia Arith String.
From Verif Require Import Base F64.
Import ListNotations.
Local Open Scope string_scope.
Local Open Scope list_scope.
Local Open Scope Z_scope.

Lemma digits_val_from ds : forall a, fold_left (fun acc c => 10 * acc + digit_val c) ds a = a * 10 ^ Z.of_nat (List.length ds) + digits_val ds.
Proof.
  unfold digits_val. induction ds as [|d ds IH]; intros a; cbn [fold_left List.length]; [change (10 ^ Z.of_nat 0) with 1; lia|].
  rewrite IH, (IH (10 * 0 + _)), Nat2Z.inj_succ, Z.pow_succ_r by lia. lia.
Qed.
Lemma digits_val_app a b : digits_val (a ++ b) = digits_val a * 10 ^ Z.of_nat (List.length b) + digits_val b.
Proof. unfold digits_val at 1. rewrite fold_left_app. apply digits_val_from. Qed.
Lemma digits_val_cons c ds : digits_val (c :: ds) = digit_val c * 10 ^ Z.of_nat (List.length ds) + digits_val ds.
Proof. apply (digits_val_app [c] ds). Qed.
Lemma digits_val_zeros n : digits_val (repeat 48%N n) = 0.
Proof. induction n as [|n IH]; [reflexivity|]. cbn [repeat]. now rewrite digits_val_cons, IH. Qed.

Lemma digit_char d : 0 <= d < 10 -> is_digit (Z.to_N (48 + d)) = true /\ digit_val (Z.to_N (48 + d)) = d.
Proof.
  intros H. unfold is_digit, digit_val. rewrite Z2N.id by lia. split; [|lia].
  apply andb_true_iff. split; apply N.leb_le; lia.
Qed.

(** [ds] are the digits of [z]: no leading zero unless [z = 0]. *)
Definition digits_of (ds : str) (z : Z) : Prop :=
  Forall (fun c => is_digit c = true) ds /\ ds <> [] /\ digits_val ds = z /\
  z < 10 ^ Z.of_nat (List.length ds) /\ (10 ^ (Z.of_nat (List.length ds) - 1) <= z \/ List.length ds = 1%nat).

Lemma digits_fuel_ok f : forall z acc, 0 <= z < 2 ^ Z.of_nat f -> (0 < f)%nat ->
  exists ds, digits_fuel f z acc = ds ++ acc /\ digits_of ds z.
Proof.
  induction f as [|f IH]; intros z acc Hz Hf; [lia|]. cbn [digits_fuel].
  pose proof (Z.mod_pos_bound z 10 ltac:(lia)) as Hm. destruct (digit_char _ Hm) as [D1 D2].
  destruct (z <? 10) eqn:E.
  - apply Z.ltb_lt in E. exists [Z.to_N (48 + z mod 10)]. split; [reflexivity|].
    assert (z mod 10 = z) by (apply Z.mod_small; lia). unfold digits_of. repeat split.
    + now constructor.
    + discriminate.
    + change (digits_val [Z.to_N (48 + z mod 10)]) with (10 * 0 + digit_val (Z.to_N (48 + z mod 10))). rewrite D2. lia.
    + change (z < 10). lia.
    + now right.
  - apply Z.ltb_ge in E. assert (Hf' : (0 < f)%nat) by (destruct f; [cbn in Hz; lia|lia]).
    assert (Hd : z / 10 < 2 ^ Z.of_nat f).
    { apply Z.div_lt_upper_bound; [lia|]. rewrite Nat2Z.inj_succ, Z.pow_succ_r in Hz by lia. lia. }
    assert (Hd0 : 1 <= z / 10) by (apply Z.div_le_lower_bound; lia).
    destruct (IH (z / 10) (Z.to_N (48 + z mod 10) :: acc)) as (ds & E1 & F & Hne & V & U & Lo); [lia|assumption|].
    exists (ds ++ [Z.to_N (48 + z mod 10)]). split; [rewrite E1, <- app_assoc; reflexivity|].
    pose proof (Z.div_mod z 10 ltac:(lia)) as DM.
    assert (P : 10 ^ Z.of_nat (List.length (ds ++ [Z.to_N (48 + z mod 10)])) = 10 * 10 ^ Z.of_nat (List.length ds)).
    { rewrite app_length. cbn [List.length]. rewrite Nat2Z.inj_add, Z.pow_add_r by lia. change (10 ^ Z.of_nat 1) with 10. lia. }
    unfold digits_of. repeat split.
    + apply Forall_app. split; [assumption|now constructor].
    + now destruct ds.
    + rewrite digits_val_app, V. cbn [List.length]. change (digits_val [Z.to_N (48 + z mod 10)]) with (10 * 0 + digit_val (Z.to_N (48 + z mod 10))). rewrite D2. lia.
    + rewrite P. lia.
    + left. replace (Z.of_nat (List.length (ds ++ [Z.to_N (48 + z mod 10)])) - 1) with (Z.of_nat (List.length ds)) by (rewrite app_length; cbn; lia).
      destruct Lo as [Lo|Lo].
      * replace (Z.of_nat (List.length ds)) with (Z.succ (Z.of_nat (List.length ds) - 1)) by lia.
        rewrite Z.pow_succ_r by (destruct ds; [congruence|cbn [List.length]; lia]). lia.
      * rewrite Lo. change (10 ^ Z.of_nat 1) with 10. lia.
Qed.
Lemma show_digits z : 0 <= z -> digits_of (show_nonneg z) z.
Proof.
  intros H. destruct (digits_fuel_ok (S (Z.to_nat (Z.log2 z))) z []) as (ds & E & D); [|lia|].
  - split; [assumption|]. rewrite Nat2Z.inj_succ, Z2Nat.id by apply Z.log2_nonneg.
    destruct (Z.eq_dec z 0) as [->|]; [now cbn|]. apply Z.log2_spec. lia.
  - unfold show_nonneg. rewrite E, app_nil_r. exact D.
Qed.

Definition all_digits (s : str) : Prop := Forall (fun c => is_digit c = true) s.
Definition no_digit_first (s : str) : Prop := match s with c :: _ => is_digit c = false | [] => True end.
Lemma span_digits_app a b : all_digits a -> no_digit_first b -> span_digits (a ++ b) = (a, b).
Proof.
  intros Ha Hb. induction Ha as [|c a Hc Ha IH]; cbn [app span_digits].
  - destruct b as [|c b]; [reflexivity|]. cbn in *. now rewrite Hb.
  - now rewrite Hc, IH.
Qed.
Lemma span_digits_all a : all_digits a -> span_digits a = (a, []).
Proof. intros H. rewrite <- (app_nil_r a) at 1. now apply span_digits_app. Qed.

Lemma digit_lower c : is_digit c = true -> lower c = c.
Proof.
  intros H. unfold is_digit in H. apply andb_true_iff in H as [H1 H2]. apply N.leb_le in H1, H2. unfold lower.
  destruct (65 <=? c)%N eqn:E; [apply N.leb_le in E; lia|reflexivity].
Qed.
Lemma digit_bounds c : is_digit c = true -> (48 <= c <= 57)%N.
Proof. intros H. unfold is_digit in H. apply andb_true_iff in H as [H1 H2]. apply N.leb_le in H1, H2. lia. Qed.

(** A text that starts with a digit is not [inf] or [nan]. *)
Lemma digit_not_special c t x r : is_digit c = true -> is_digit x = false -> str_eqb (map lower (c :: t)) (x :: r) = false.
Proof.
  intros Hc Hx. cbn [map str_eqb]. rewrite (digit_lower c Hc). destruct (N.eqb_spec c x) as [->|]; [congruence|reflexivity].
Qed.
Lemma parse_unsigned_digits sg c t : is_digit c = true ->
  parse_unsigned sg (c :: t) =
    let '(ip, r1) := span_digits (c :: t) in
    let '(fp, r2) := match r1 with c :: t => if N.eqb c 46 then span_digits t else ([], r1) | [] => ([], r1) end in
    match ip ++ fp with
    | [] => None
    | ds => match parse_exp r2 with None => None | Some e => Some (f_of_dec sg (digits_val ds) (e - Z.of_nat (List.length fp))) end
    end.
Proof.
  intros Hc. unfold parse_unsigned.
  change (lit "inf") with (105%N :: [110; 102]%N). change (lit "infinity") with (105%N :: [110; 102; 105; 110; 105; 116; 121]%N). change (lit "nan") with (110%N :: [97; 110]%N).
  now rewrite !(digit_not_special c t) by (assumption || reflexivity).
Qed.
(** Reading [ip] or [ip.fp], possibly with an exponent text [r]. *)
Lemma parse_int sg ip r e : all_digits ip -> ip <> [] -> no_digit_first r -> match r with c :: _ => N.eqb c 46 = false | [] => True end ->
  parse_exp r = Some e -> parse_unsigned sg (ip ++ r) = Some (f_of_dec sg (digits_val ip) e).
Proof.
  intros H Hne Hr Hr' He. destruct ip as [|c ip]; [congruence|]. cbn [app]. rewrite parse_unsigned_digits by now inversion H.
  change (c :: ip ++ r) with ((c :: ip) ++ r). rewrite span_digits_app by assumption.
  destruct r as [|d r]; [|rewrite Hr']; rewrite app_nil_r, He; cbn [List.length]; change (Z.of_nat 0) with 0; now rewrite Z.sub_0_r.
Qed.
Lemma parse_frac sg ip fp r e : all_digits ip -> ip <> [] -> all_digits fp -> no_digit_first r ->
  parse_exp r = Some e ->
  parse_unsigned sg (ip ++ 46%N :: fp ++ r) = Some (f_of_dec sg (digits_val (ip ++ fp)) (e - Z.of_nat (List.length fp))).
Proof.
  intros H Hne Hf Hr He. destruct ip as [|c ip]; [congruence|]. cbn [app]. rewrite parse_unsigned_digits by now inversion H.
  change (c :: ip ++ 46%N :: fp ++ r) with ((c :: ip) ++ 46%N :: fp ++ r). rewrite (span_digits_app (c :: ip)) by (assumption || reflexivity).
  cbv beta iota. change (N.eqb 46 46) with true. cbv iota. rewrite span_digits_app by assumption. cbn [app]. now rewrite He.
Qed.

(** The sign in front. *)
Lemma parse_neg s x : s <> [] -> parse_unsigned true s = Some x -> parse_f64 (45%N :: s) = Some x.
Proof. intros Hne H. cbn. now destruct s. Qed.
Lemma parse_pos c t x : is_digit c = true -> parse_unsigned false (c :: t) = Some x -> parse_f64 (c :: t) = Some x.
Proof.
  intros Hc H. apply digit_bounds in Hc. unfold parse_f64. destruct (N.eqb_spec c 45) as [->|]; [lia|]. destruct (N.eqb_spec c 43) as [->|]; [lia|]. exact H.
Qed.

Lemma zeros_digits n : all_digits (zeros n).
Proof. apply Forall_forall. intros c H. apply repeat_spec in H. now subst. Qed.
Lemma zeros_length n : 0 <= n -> Z.of_nat (List.length (zeros n)) = n.
Proof. intros H. unfold zeros. rewrite repeat_length. lia. Qed.
Lemma Forall_firstn {A} (P : A -> Prop) n l : Forall P l -> Forall P (firstn n l).
Proof. intros H. revert n; induction H; intros [|n]; cbn; constructor; auto. Qed.
Lemma Forall_skipn {A} (P : A -> Prop) n l : Forall P l -> Forall P (skipn n l).
Proof. intros H. revert n; induction H; intros [|n]; cbn; auto. Qed.

(** A plain decimal text is read as the number it was made from. *)
Lemma f_of_dec_shift s c p : 0 <= c -> 0 <= p -> f_of_dec s (c * 10 ^ p) 0 = f_of_dec s c p.
Proof.
  intros Hc Hp. destruct c as [|c|c]; [reflexivity| |lia]. unfold f_of_dec. rewrite (proj2 (Z.ltb_ge p 0)) by lia.
  assert (0 < 10 ^ p) by (apply Z.pow_pos_nonneg; lia). destruct (10 ^ p) as [|q|q]; try lia.
  change (Z.pos c * Z.pos q) with (Z.pos (c * q)). cbv iota. change (0 <? 0) with false. cbv iota.
  change (Z.to_pos (10 ^ 0)) with 1%positive. now rewrite Pos.mul_1_r.
Qed.
Lemma render_dec_shape c p : 0 <= c ->
  exists ip r, render_dec c p = ip ++ r /\ ip <> [] /\ all_digits ip /\
    ((r = [] /\ 0 <= p /\ digits_val ip = c * 10 ^ p) \/
     (exists fp, r = 46%N :: fp /\ all_digits fp /\ Z.of_nat (List.length fp) = - p /\ p < 0 /\ digits_val (ip ++ fp) = c)).
Proof.
  intros Hc. destruct (show_digits c Hc) as (D & Hne & V & U & Lo). unfold render_dec. set (ds := show_nonneg c) in *.
  destruct (0 <=? p) eqn:Ep.
  - apply Z.leb_le in Ep. exists (ds ++ zeros p), []. rewrite app_nil_r. split; [reflexivity|]. split; [now destruct ds|]. split.
    + apply Forall_app. split; [exact D|apply zeros_digits].
    + left. split; [reflexivity|]. split; [assumption|]. rewrite digits_val_app, V, zeros_length by assumption. unfold zeros. rewrite digits_val_zeros. lia.
  - apply Z.leb_gt in Ep. destruct (- p <? Z.of_nat (List.length ds)) eqn:El.
    + apply Z.ltb_lt in El. set (k := Z.to_nat (Z.of_nat (List.length ds) + p)). exists (firstn k ds), (46%N :: skipn k ds).
      split; [reflexivity|]. split; [|split; [now apply Forall_firstn|]].
      * intros E. apply (f_equal (@List.length _)) in E. rewrite firstn_length in E. cbn [List.length] in E. lia.
      * right. exists (skipn k ds). split; [reflexivity|]. split; [now apply Forall_skipn|]. split; [rewrite skipn_length; lia|].
        split; [assumption|]. now rewrite firstn_skipn.
    + apply Z.ltb_ge in El. exists [48%N], (46%N :: zeros (- p - Z.of_nat (List.length ds)) ++ ds). split; [reflexivity|]. split; [discriminate|].
      split; [now constructor|]. right. exists (zeros (- p - Z.of_nat (List.length ds)) ++ ds). split; [reflexivity|].
      split; [apply Forall_app; split; [apply zeros_digits|exact D]|]. split; [rewrite app_length, Nat2Z.inj_add, zeros_length; lia|].
      split; [assumption|]. change ([48%N] ++ ?x) with (48%N :: x). rewrite digits_val_cons, digits_val_app, V. unfold zeros. rewrite digits_val_zeros. change (digit_val 48%N) with 0. lia.
Qed.
Lemma render_dec_parse sg c p : 0 <= c -> parse_unsigned sg (render_dec c p) = Some (f_of_dec sg c p).
Proof.
  intros Hc. destruct (render_dec_shape c p Hc) as (ip & r & -> & Hne & D & [(-> & Hp & V)|(fp & -> & F & Hl & Hp & V)]).
  - rewrite (parse_int sg ip [] 0) by (auto; exact I). rewrite V. now rewrite f_of_dec_shift.
  - pose proof (parse_frac sg ip fp [] 0 D Hne F I eq_refl) as H. rewrite app_nil_r in H. rewrite H, V. do 2 f_equal. unfold str, char in *. lia.
Qed.
(** Scientific notation likewise. *)
Lemma show_Z_exp z : parse_exp (101%N :: show_Z z) = Some z.
Proof.
  unfold show_Z. destruct (z <? 0) eqn:E.
  - apply Z.ltb_lt in E. destruct (show_digits (- z) ltac:(lia)) as (D & Hne & V & _). cbn [parse_exp].
    change (N.eqb 101 101 || N.eqb 101 69)%bool with true. cbv iota. change (N.eqb 45 45) with true. cbv iota.
    rewrite span_digits_all by exact D. destruct (show_nonneg (- z)) as [|c t]; [congruence|]. f_equal. rewrite V. lia.
  - apply Z.ltb_ge in E. destruct (show_digits z E) as (D & Hne & V & _). destruct (show_nonneg z) as [|c t]; [congruence|]. cbn [parse_exp].
    change (N.eqb 101 101 || N.eqb 101 69)%bool with true. cbv iota.
    assert (Hc : is_digit c = true) by now inversion D. apply digit_bounds in Hc.
    destruct (N.eqb_spec c 45) as [->|]; [lia|]. destruct (N.eqb_spec c 43) as [->|]; [lia|]. cbv iota.
    rewrite span_digits_all by exact D. now rewrite V.
Qed.
Lemma render_sci_parse sg c p : 0 <= c -> parse_unsigned sg (render_sci c p) = Some (f_of_dec sg c p).
Proof.
  intros Hc. destruct (show_digits c Hc) as (D & Hne & V & U & Lo). unfold render_sci. set (ds := show_nonneg c) in *.
  destruct ds as [|d [|d2 t]]; [congruence| |].
  - change ([d] ++ [101%N] ++ ?x) with ([d] ++ 101%N :: x). rewrite (parse_int sg [d] _ (0 + p)); [|exact D|discriminate|reflexivity|reflexivity|apply show_Z_exp].
    rewrite V. do 2 f_equal.
  - change ((d :: 46%N :: d2 :: t) ++ [101%N] ++ ?x) with ([d] ++ 46%N :: (d2 :: t) ++ 101%N :: x).
    inversion D as [|? ? D1 D2]; subst.
    rewrite (parse_frac sg [d] (d2 :: t) _ (Z.of_nat (List.length (d :: d2 :: t)) - 1 + p)); [|now constructor|discriminate|exact D2|reflexivity|apply show_Z_exp].
    change ([d] ++ d2 :: t) with (d :: d2 :: t). do 2 f_equal. cbn [List.length]. lia.
Qed.

(** The texts only use digits and one dot. *)
Lemma render_dec_chars c p : 0 <= c -> Forall (fun x => is_digit x = true \/ x = 46%N) (render_dec c p) /\
  exists x t, render_dec c p = x :: t /\ is_digit x = true.
Proof.
  intros Hc. destruct (render_dec_shape c p Hc) as (ip & r & -> & Hne & D & Hr). split.
  - apply Forall_app. split; [eapply Forall_impl; [|exact D]; tauto|].
    destruct Hr as [(-> & _)|(fp & -> & F & _)]; constructor; auto. eapply Forall_impl; [|exact F]; tauto.
  - destruct ip as [|x ip]; [congruence|]. exists x, (ip ++ r). split; [reflexivity|now inversion D].
Qed.
