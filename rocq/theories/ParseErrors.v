(** * ParseErrors: which errors reading a text ends with, and what they say. *)
From Coq Require Import List NArith ZArith Bool Lia Arith String.
From Verif Require Import Base BaseFacts F64 Num Types Helpers Parser EvalTotal ParserBase GrammarSpec ParserSpec ParserGrammar ParserGrammar2 ParserGrammar3 ParserTop PropParser SpellSpec ErrorSpec.
Import ListNotations.
Local Open Scope list_scope.

Section ParseErrors.
Context {N : Num} {En : Env}.
Lemma piece_refl s : piece s s.
Proof. exists [], []. now rewrite app_nil_r. Qed.
Lemma piece_trans r s t : piece r s -> piece s t -> piece r t.
Proof. intros (p & q & ->) (p' & q' & ->). exists (p' ++ p), (q ++ q'). now rewrite !app_assoc. Qed.
Lemma slice_piece {E} s a b r : @slice E _ s a b = Ok r -> piece r s.
Proof.
  intros H. apply slice_inv in H as (_ & _ & ->). exists (firstn a s), (skipn (b - a) (skipn a s)).
  now rewrite firstn_skipn, firstn_skipn.
Qed.
Lemma join_piece sep (l : list str) a : In a l -> piece a (join sep l).
Proof.
  induction l as [|x l IH]; [easy|]. intros [->|H].
  - destruct l as [|y l]; [apply piece_refl|]. exists [], (sep ++ join sep (y :: l)). reflexivity.
  - destruct l as [|y l]; [easy|]. destruct (IH H) as (p & q & E). exists (x ++ sep ++ p), q.
    change (join sep (x :: y :: l)) with (x ++ sep ++ join sep (y :: l)). rewrite E. now rewrite <- !app_assoc.
Qed.
Lemma get_args_piece cs a : In a (get_args cs) -> piece a cs.
Proof. intros H. rewrite <- (get_args_join cs). now apply join_piece. Qed.
Lemma before_piece c s : piece (before c s) s.
Proof.
  exists []. induction s as [|x s (q & IH)]; cbn; [now exists []|]. destruct (N.eqb x c); [now exists (x :: s)|].
  exists q. cbn in *. now rewrite <- IH.
Qed.
Lemma after_piece c s t : after c s = Some t -> piece t s.
Proof.
  intros H. assert (E : exists p, s = p ++ t).
  { induction s as [|x s IH]; cbn in H; [discriminate|]. destruct (N.eqb x c); [injection H as ->; now exists [x]|].
    destruct (IH H) as (p & ->). now exists (x :: p). }
  destruct E as (p & ->). exists p, []. now rewrite app_nil_r.
Qed.
Lemma trim_start_tail s : exists p, s = p ++ trim_start s.
Proof. induction s as [|x s (p & IH)]; cbn; [now exists []|]. destruct (is_whitespace x); [|now exists []]. exists (x :: p). cbn. now rewrite <- IH. Qed.
Lemma strip_piece s : piece (strip_spaces s) (no_blanks s).
Proof.
  assert (H : piece (trim s) s).
  { unfold trim. destruct (trim_start_tail s) as (p & Hp). destruct (trim_start_tail (rev (trim_start s))) as (q & Hq).
    exists p, (rev q). rewrite <- rev_app_distr, <- Hq, rev_involutive. exact Hp. }
  destruct H as (p & q & E). unfold strip_spaces. rewrite <- no_blanks_filter.
  exists (no_blanks p), (no_blanks q). rewrite <- !no_blanks_app. now rewrite <- E.
Qed.

(** Invalid names break the naming rule. *)
Lemma invalid_go cs : forall d p, valid_name_go cs d p = false -> exists q x r, cs = q ++ x :: r /\ (d + brace_depth q = 0)%Z /\
  (operator_char x \/ x = ch "=" \/ (is_numeric x = true /\ last q p <> 95%N)).
Proof.
  induction cs as [|i cs IH]; intros d p H; [discriminate|]. cbn [valid_name_go] in H.
  set (d1 := if N.eqb i 123 then (d + 1)%Z else d) in H. set (d2 := if N.eqb i 125 then (d1 - 1)%Z else d1) in H.
  assert (Hi : is_op_or_eq i = true \/ is_numeric i = true -> N.eqb i 123 = false /\ N.eqb i 125 = false).
  { intros [G|G]; (split; apply N.eqb_neq; intros ->; vm_compute in G; discriminate). }
  assert (Hd : is_op_or_eq i = true \/ is_numeric i = true -> d2 = d).
  { intros G. destruct (Hi G) as [E1 E2]. unfold d2, d1. now rewrite E1, E2. }
  destruct (is_op_or_eq i && Z.eqb d2 0)%bool eqn:E1.
  - apply andb_true_iff in E1 as [E1 E2]. apply Z.eqb_eq in E2. rewrite (Hd (or_introl E1)) in E2.
    exists [], i, cs. split; [reflexivity|]. split; [change (brace_depth []) with 0%Z; lia|].
    unfold is_op_or_eq in E1. destruct (get_op_symbol i) eqn:G.
    + left. unfold get_op_symbol in G. unfold operator_char.
      repeat match type of G with (if N.eqb i ?n then _ else _) = _ => destruct (N.eqb_spec i n) as [->|?]; [cbn; tauto|] end. discriminate.
    + right; left. now apply N.eqb_eq in E1.
  - destruct (is_numeric i && Z.eqb d2 0 && negb (N.eqb p 95))%bool eqn:E2.
    + apply andb_true_iff in E2 as [E2 E3]. apply andb_true_iff in E2 as [E2 E4]. apply Z.eqb_eq in E4. rewrite (Hd (or_intror E2)) in E4.
      apply negb_true_iff, N.eqb_neq in E3. exists [], i, cs. split; [reflexivity|]. split; [change (brace_depth []) with 0%Z; lia|]. auto.
    + destruct (IH _ _ H) as (q & x & r & -> & H1 & H2). exists (i :: q), x, r. split; [reflexivity|]. split.
      * rewrite <- H1. unfold brace_depth, d2, d1. cbn [count]. change (ch "{") with 123%N. change (ch "}") with 125%N.
        destruct (N.eqb_spec i 123) as [?|?]; destruct (N.eqb_spec i 125) as [?|?]; try lia.
      * destruct H2 as [H2|[H2|[H2 H3]]]; auto. right; right. split; [exact H2|]. destruct q; [exact H3|]. 
        now rewrite last_cons.
Qed.
Lemma invalid_rule n : @is_valid_var_name _ ParserError n = Ok false -> ~ naming_rule n.
Proof.
  unfold is_valid_var_name. destruct n as [|c t]; [discriminate|].
  destruct (negb (is_alphabetic c) && negb (N.eqb c 92))%bool eqn:E; intros H [(c' & t' & E' & Hc) Hr].
  - injection E' as <- <-. apply andb_true_iff in E as [E1 E2]. apply negb_true_iff in E1, E2. apply N.eqb_neq in E2. destruct Hc; [congruence|contradiction].
  - assert (H' : valid_name_go (c :: t) 0 92%N = false) by congruence. apply invalid_go in H' as (q & x & r & Eq & Hd & Hx). destruct (Hr q x r Eq) as (R1 & R2 & R3); [lia|].
    destruct Hx as [Hx|[Hx|[Hx Hl]]]; [contradiction..|]. destruct (R3 Hx) as (p' & ->). rewrite last_last in Hl. now apply Hl.
Qed.

Section Text.
Variable text : str.
Let Q := @quotes N En text.
Notation ok := (sat (fun _ => True) Q True True).
Variable s0 : str.
Hypothesis Hs0 : piece s0 (no_blanks text).
Variable rec : str -> res ParserError (AST N).
Hypothesis Hrec : forall s, piece s (no_blanks text) -> ok (rec s).

Lemma sub_piece s : piece s s0 -> piece s (no_blanks text).
Proof. intros H. now apply (piece_trans s s0). Qed.
Lemma mapM_rec_says l : (forall s, In s l -> piece s (no_blanks text)) -> ok (mapM rec l).
Proof. intros H. eapply sat_true. apply (sat_mapM (fun _ => True)). intros s Hs. apply Hrec. now apply H. Qed.
Lemma slice_says a b : sat (fun r => piece r s0) Q True True (slice s0 a b).
Proof.
  destruct (slice s0 a b) as [r|e| |] eqn:E; cbn; auto; [now apply slice_piece in E|].
  unfold slice in E. destruct (_ && _)%bool in E; discriminate.
Qed.
Lemma idx_says {A} (l : list A) i : ok (idx l i).
Proof. unfold idx. destruct (nth_error l i); exact I. Qed.

Lemma first_arg_empty inner rest : get_args inner = [] :: rest -> inner = [] \/ exists t, inner = 44%N :: t.
Proof.
  intros H. pose proof (get_args_join inner) as J. rewrite H in J. destruct rest as [|y rest]; [left; now symmetry|right].
  change (join [44%N] ([] :: y :: rest)) with (44%N :: join [44%N] (y :: rest)) in J. eauto.
Qed.
Lemma parse_value_says : s0 <> [] -> ok (parse_value rec s0).
Proof.
  intros Hne. unfold parse_value. destruct (negb (contains s0 91%N)) eqn:Ec.
  - destruct (nparse s0) eqn:En'; [exact I|]. cbn. split; [exact Hs0|]. auto.
  - assert (Hbr : In (ch "[") s0) by (apply negb_false_iff in Ec; now apply contains_In in Ec).
    assert (Hpv : Q (ParseValue s0)) by (cbn; auto).
    destruct (Nat.leb 2 (byte_len s0)) eqn:El; [|exact Hpv]. apply Nat.leb_le in El.
    destruct (idx s0 0) as [c0| | |] eqn:E0; try exact I; cbn [bind]; [|unfold idx in E0; destruct (nth_error s0 0); discriminate].
    apply idx_ok in E0. destruct s0 as [|c0' t] eqn:Es; [easy|]. injection E0 as ->. rewrite <- Es in *.
    destruct (N.eqb_spec c0 91) as [->|H0]; cbn [bind].
    2:{ exists s0. split; [exact Hs0|]. split; [exact Hbr|]. intros (u & E). rewrite Es in E. cbn in E. injection E as E _. now apply H0. }
    destruct (idx s0 (byte_len s0 - 1)) as [cl| | |] eqn:E1; cbn [bind]; try exact I; [|unfold idx in E1; destruct (nth_error s0 _); discriminate].
    apply idx_ok in E1. pose proof (byte_len_ge s0) as Hge.
    assert (Hlt : byte_len s0 - 1 < List.length s0) by (apply nth_error_Some; now rewrite E1).
    assert (Hbl : byte_len s0 = List.length s0) by lia. rewrite Hbl in E1.
    destruct (exists_last (l := s0)) as (u & z & Eu); [exact Hne|].
    assert (z = cl).
    { rewrite Eu, app_length in E1. cbn in E1. rewrite Nat.add_sub, nth_error_app2, Nat.sub_diag in E1 by lia. cbn in E1. congruence. }
    subst z.
    destruct (N.eqb_spec cl 93) as [->|H1].
    2:{ exists s0. split; [exact Hs0|]. split; [exact Hbr|]. intros (v & E). rewrite app_assoc, Eu in E. apply app_inj_tail in E as [_ E]. now apply H1. }
    destruct u as [|x u]; [rewrite Eu, app_length in Hbl; rewrite Eu in El; cbn in El; lia|].
    assert (x = 91%N) by (rewrite Es in Eu; cbn in Eu; congruence). subst x.
    rewrite Hbl. replace (slice s0 1 (List.length s0 - 1)) with (@Ok ParserError _ u).
    2:{ rewrite Eu. rewrite slice_ok by (rewrite app_length; cbn; lia). rewrite app_length. cbn [List.length app skipn].
        replace (S (List.length u) + 1 - 1 - 1) with (List.length u) by lia. now rewrite firstn_app, Nat.sub_diag, firstn_all, app_nil_r. }
    cbn [bind]. cbv zeta.
    assert (Hp : forall a, In a (get_args u) -> piece a (no_blanks text)).
    { intros a Ha. apply sub_piece. apply (piece_trans a u); [now apply get_args_piece|]. exists [91%N], [93%N]. exact Eu. }
    pose proof (get_args_nonempty u) as Hn.
    destruct (get_args u) as [|[|a0 a] args] eqn:Ea; [easy| |].
    { cbn. apply first_arg_empty in Ea as [->|(t' & ->)].
      - left. apply sub_piece. rewrite Eu. apply piece_refl.
      - right. apply sub_piece. rewrite Eu. exists [], (t' ++ [93%N]). reflexivity. }
    assert (Hnr : Q NotRectMatrix) by (exists u; apply sub_piece; rewrite Eu; apply piece_refl).
    eapply (sat_bind (fun _ => True)); [now apply mapM_rec_says|]. intros out _.
    destruct (_ && _)%bool; [exact I|]. destruct (_ && _)%bool; [|exact Hpv].
    eapply (sat_bind (fun _ => True)).
    { eapply sat_true. apply (sat_mapM (fun _ => True)). intros x _. destruct x; try exact Hnr. exact I. }
    intros m _. eapply (sat_bind (fun _ => True)); [eapply (sat_bind (fun _ => True)); [apply idx_says|intros; exact I]|]. intros sz _.
    destruct (negb (forallb _ m)); [exact Hnr|]. destruct row_major; [exact I|].
    eapply (sat_bind (fun _ => True)); [|intros; exact I]. unfold transpose_lit.
    eapply (sat_bind (fun _ => True)); [eapply (sat_bind (fun _ => True)); [apply idx_says|intros; exact I]|]. intros n _.
    eapply sat_true. apply (sat_mapM (fun _ => True)). intros i _. eapply sat_true. apply (sat_mapM (fun _ => True)). intros r _. apply idx_says.
Qed.
Lemma parse_split_says e : ok (parse_split rec s0 e).
Proof.
  destruct e as [[op i] w]. unfold parse_split.
  eapply sat_bind; [apply slice_says|]. intros r Hr. eapply sat_bind; [apply slice_says|]. intros l Hl.
  eapply (sat_bind (fun _ => True)); [apply Hrec; now apply sub_piece|]. intros rb _. destruct l; [exact I|].
  eapply (sat_bind (fun _ => True)); [apply Hrec; now apply sub_piece|]. intros; exact I.
Qed.
Lemma args_pieces inner : piece inner s0 -> forall a, In a (get_args inner) -> piece a (no_blanks text).
Proof. intros H a Ha. apply sub_piece. apply (piece_trans a inner); [now apply get_args_piece|exact H]. Qed.
Lemma starts_piece p : starts_with s0 p = true -> piece p (no_blanks text).
Proof. intros H. apply sub_piece. apply starts_with_app in H as (t & ->). exists [], t. reflexivity. Qed.
Lemma parse_builtin_says op p : In (op, p) function_look_up -> starts_with s0 p = true -> ok (parse_builtin rec s0 op p).
Proof.
  intros Hin Hst. unfold parse_builtin. eapply sat_bind; [apply slice_says|]. intros inner Hi. pose proof (args_pieces inner Hi) as Ha.
  destruct (op_eqb op ORoot) eqn:Er.
  - assert (op = ORoot) as -> by (destruct op; try discriminate Er; reflexivity).
    assert (p = lit "root(") as ->.
    { cbn in Hin. repeat (destruct Hin as [Hin|Hin]; [try discriminate Hin; injection Hin as <-; reflexivity|]). easy. }
    assert (Hw : Q (PWrongNumberOfArgs (lit "root"))) by (cbn; left; split; [reflexivity|now apply starts_piece]).
    destruct (get_args inner) as [|a [|b [|c l]]]; try exact Hw.
    eapply (sat_bind (fun _ => True)); [apply Hrec; apply Ha; cbn; auto|]. intros x _.
    eapply (sat_bind (fun _ => True)); [apply Hrec; apply Ha; cbn; auto|]. intros; exact I.
  - eapply (sat_bind (fun _ => True)); [apply Hrec; now apply sub_piece|]. intros; exact I.
Qed.
Lemma parse_eq_entry_says i : piece i (no_blanks text) -> ok (parse_eq_entry rec i).
Proof.
  intros Hi. unfold parse_eq_entry. destruct (negb _); [exact I|]. cbv zeta.
  destruct (after 61%N i) as [rest|] eqn:Ea; [|exact I]. cbn [unwrap bind].
  assert (H1 : ok (rec (before 61%N i))) by (apply Hrec; eapply piece_trans; [apply before_piece|exact Hi]).
  assert (H2 : ok (rec (before 61%N rest))).
  { apply Hrec. eapply piece_trans; [apply before_piece|]. eapply piece_trans; [eapply after_piece; exact Ea|exact Hi]. }
  destruct (Nat.leb _ _); (eapply (sat_bind (fun _ => True)); [eassumption|intros x _]); (eapply (sat_bind (fun _ => True)); [eassumption|intros; exact I]).
Qed.
Lemma parse_advanced_says op p : In (op, p) advanced_look_up -> starts_with s0 p = true -> ok (parse_advanced rec s0 op p).
Proof.
  intros Hin Hst. unfold parse_advanced. eapply sat_bind; [apply slice_says|]. intros inner Hi. pose proof (args_pieces inner Hi) as Ha. cbv zeta.
  cbn in Hin. destruct Hin as [Hin|[Hin|[Hin|[]]]]; injection Hin as <- <-.
  - assert (Hw : Q (PWrongNumberOfArgs (lit "integral"))) by (cbn; right; right; split; [reflexivity|now apply starts_piece]).
    destruct (get_args inner) as [|a [|b [|c [|d [|? l]]]]]; try exact Hw.
    eapply (sat_bind (fun _ => True)); [apply Hrec; apply Ha; cbn; auto|]. intros x _.
    eapply (sat_bind (fun _ => True)); [apply Hrec; apply Ha; cbn; auto|]. intros y _.
    eapply (sat_bind (fun _ => True)); [apply Hrec; apply Ha; cbn; auto|]. intros; exact I.
  - assert (Hw : Q (PWrongNumberOfArgs (lit "derivative"))) by (cbn; right; left; split; [reflexivity|now apply starts_piece]).
    destruct (get_args inner) as [|a [|b [|c [|? l]]]]; try exact Hw.
    eapply (sat_bind (fun _ => True)); [apply Hrec; apply Ha; cbn; auto|]. intros x _.
    eapply (sat_bind (fun _ => True)); [apply Hrec; apply Ha; cbn; auto|]. intros; exact I.
  - eapply (sat_bind (fun _ => True)); [|intros; exact I]. eapply sat_true. apply (sat_mapM (fun _ => True)). intros i Hin.
    apply parse_eq_entry_says. now apply Ha.
Qed.
Lemma valid_says v : sat (fun b => @is_valid_var_name _ ParserError v = Ok b) Q True True (is_valid_var_name v).
Proof. destruct v as [|c t]; [exact I|]. cbn. destruct (_ && _)%bool; reflexivity. Qed.
Lemma parse_call_says c0 t : s0 = c0 :: t -> c0 <> 40%N -> contains s0 40%N = true -> ok (parse_call rec s0).
Proof.
  intros Es H0 Hc. unfold parse_call. cbv zeta. eapply sat_bind; [apply slice_says|]. intros inner Hi.
  eapply (sat_bind (fun _ => True)); [apply mapM_rec_says; now apply args_pieces|]. intros aa _.
  eapply sat_bind; [apply valid_says|]. intros b Hb. destruct b; [exact I|]. cbn. split; [|split].
  - apply sub_piece. destruct (contains_split _ _ Hc) as (u & Hu). exists [], u. rewrite Hu at 1. now rewrite <- app_assoc.
  - rewrite Es. cbn. destruct (N.eqb_spec c0 40); [contradiction|discriminate].
  - now apply invalid_rule.
Qed.
Lemma try_prefix_says {A} (l : list (A * str)) k o :
  (forall a p, In (a, p) l -> starts_with s0 p = true -> ok (k a p)) -> ok o -> ok (try_prefix s0 l k o).
Proof.
  intros Hk Ho. induction l as [|[a p] l IH]; cbn [try_prefix]; [exact Ho|].
  destruct (starts_with s0 p) eqn:E; [apply Hk; [now left|exact E]|]. apply IH. intros; apply Hk; [now right|assumption].
Qed.
Lemma parse_body_says : ok (parse_body rec s0).
Proof.
  unfold parse_body. destruct s0 as [|c0 t] eqn:Es; [exact I|]. rewrite <- Es in *. cbv zeta.
  pose proof (paren_scan_fst s0 0 true) as Hps. destruct (paren_scan s0 0 true) as [po chk]. cbn in Hps. rewrite psum_count in Hps.
  destruct (Z.ltb_spec 0 po); [exists s0; split; [exact Hs0|lia]|]. destruct (Z.ltb_spec po 0); [exists s0; split; [exact Hs0|lia]|].
  assert (Hne : s0 <> []) by (rewrite Es; discriminate).
  destruct (_ && _)%bool.
  - eapply sat_bind; [apply slice_says|]. intros inner Hi. eapply (sat_bind (fun _ => True)); [apply Hrec; now apply sub_piece|]. intros; exact I.
  - destruct (select_op _) as [e|]; [apply parse_split_says|]. unfold parse_atom.
    apply try_prefix_says; [intros; now apply parse_builtin_says|]. apply try_prefix_says; [intros; now apply parse_advanced_says|].
    destruct (contains s0 40%N && negb (N.eqb c0 40) && N.eqb (last s0 c0) 41)%bool eqn:Ec.
    { apply andb_true_iff in Ec as [Ec _]. apply andb_true_iff in Ec as [Ec E0]. apply negb_true_iff, N.eqb_neq in E0. now apply (parse_call_says c0 t). }
    clear Ec. destruct (_ || _)%bool.
    { eapply sat_bind; [apply valid_says|]. intros b Hb. destruct b; [exact I|]. cbn. split; [exact Hs0|]. split; [exact Hne|]. now apply invalid_rule. }
    destruct (_ && _)%bool; [|now apply parse_value_says].
    eapply sat_bind; [apply slice_says|]. intros inner Hi. eapply (sat_bind (fun _ => True)); [apply mapM_rec_says; now apply args_pieces|]. intros; exact I.
Qed.
End Text.

Lemma parse_inner_says text f : forall s, piece s (no_blanks text) -> sat (fun _ => True) (quotes text) True True (parse_inner f s).
Proof. induction f as [|f IH]; intros s Hs; [exact I|]. cbn [parse_inner]. now apply parse_body_says. Qed.
Theorem parse_errors_quote s e : parse s = Err e -> quotes s e.
Proof.
  intros H. unfold parse in H. cbv zeta in H.
  pose proof (parse_inner_says s (S (List.length (strip_spaces s))) (strip_spaces s) (strip_piece s)) as G. rewrite H in G. exact G.
Qed.
End ParseErrors.
