(** * PropParser: properties of [parse] (C01-C09). *)
From Coq Require Import List NArith ZArith Bool String Arith Lia.
From Verif Require Import Base BaseFacts F64 Num Types Maths Helpers Parser Eval SpecEval EvalProofs EvalTotal
  ParserBase GrammarSpec ParserSpec ParserGrammar ParserGrammar2 ParserGrammar3 ParserTop Toy.
Import ListNotations.
Local Open Scope string_scope.
Local Open Scope list_scope.

Section Props.
Context {N : Num} {En : Env}.

(** ** C01: parse returns, and does not panic on ASCII text *)
Theorem c01_parse_returns s : parse s <> @Fuel ParserError (AST N).
Proof. unfold parse. cbv zeta. apply parse_inner_no_fuel. lia. Qed.

Lemma strip_incl s : incl (strip_spaces s) s.
Proof.
  intros c H. rewrite strip_spaces_eq in H. apply no_blanks_in in H as [H _].
  destruct (trim_split s) as (w & w' & _ & _ & E). rewrite E. apply in_app_iff. right. apply in_app_iff. now left.
Qed.
Theorem c01_no_panic_on_ascii s : ascii_text s -> parse s <> @Panic ParserError (AST N).
Proof.
  intros H E. unfold parse in E. cbv zeta in E.
  pose proof (parse_inner_fine _ (strip_spaces s) (Nat.lt_succ_diag_r _)) as G. rewrite E in G.
  apply bad_foreign in G. destruct G as (c & Hc & Ha). apply strip_incl in Hc. unfold ascii_text in H. rewrite Forall_forall in H. rewrite H in Ha by assumption. discriminate.
Qed.

(** ** C02: blanks *)
Theorem c02_blank_anywhere s t : parse (s ++ ch " " :: t) = @parse N _ (s ++ t).
Proof. rewrite <- (parse_blanks (s ++ ch " " :: t)), <- (parse_blanks (s ++ t)). now rewrite !no_blanks_app. Qed.
Theorem c02_same_without_blanks s t : no_blanks s = no_blanks t -> parse s = @parse N _ t.
Proof. intros H. rewrite <- (parse_blanks s), <- (parse_blanks t). now rewrite H. Qed.
Theorem c02_white_space_around w s w' :
  (forall c, In c w -> is_whitespace c = true) -> (forall c, In c w' -> is_whitespace c = true) ->
  parse (w ++ s ++ w') = @parse N _ s.
Proof. intros H H'. unfold parse. cbv zeta. now rewrite !strip_spaces_eq, trim_around. Qed.

(** ** C03: precedence and associativity *)

(** Everything the grammar derives is parsed to its tree; so the grammar is
    unambiguous. *)
Theorem c03_grammar s a : only_blanks s -> expression (no_blanks s) a -> parse s = Ok a.
Proof. intros Hb He. rewrite (parse_fuel s (S (List.length (no_blanks s)))) by (auto; lia). apply expression_parse; [assumption|lia]. Qed.
Theorem c03_unambiguous s (a b : AST N) : expression s a -> expression s b -> a = b.
Proof.
  intros Ha Hb. pose proof (expression_parse s a (S (List.length s)) Ha ltac:(lia)) as H.
  rewrite (expression_parse s b (S (List.length s)) Hb ltac:(lia)) in H. congruence.
Qed.

Lemma phrase_down k j lead s a : j <= k -> phrase expression k lead s a -> @phrase N _ expression j lead s a.
Proof. intros H. induction H as [|k H IH]; [auto|]. intros Hp. apply IH. now apply P_tighter. Qed.
Lemma text_phrase t : proper t -> forall k lead, k <= 10 ->
  exists a, phrase expression k lead (text k lead t) a /\ reads a t.
Proof.
  induction t as [s x|s|j c op l IHl r IHr|t IH]; cbn [proper text]; intros Hp k lead Hk.
  - exists (AScalar x). split; [|constructor]. apply (phrase_down 10); [lia|]. apply P_atom. now constructor.
  - exists (AVar s). split; [|constructor]. apply (phrase_down 10); [lia|]. apply P_atom. now constructor.
  - destruct Hp as (Hop & Hl & Hr). specialize (IHl Hl). specialize (IHr Hr).
    assert (Hj : j <= 9) by (clear -Hop; cbn in Hop; repeat (destruct Hop as [Hop|Hop]; [injection Hop as <- _ _; lia|]); easy).
    assert (G : forall ld, exists a, phrase expression j ld (text (if left_assoc j then j else S j) ld l ++ c :: text (if left_assoc j then S j else j) (Nat.eqb j 0) r) a /\ reads a (TOp j c op l r)).
    { intros ld. destruct (left_assoc j) eqn:La.
      - destruct (IHl j ld ltac:(lia)) as (a & Pa & Ra). destruct (IHr (S j) (Nat.eqb j 0) ltac:(lia)) as (b & Pb & Rb).
        exists (AOp op a b). split; [|now constructor]. apply P_left; try assumption.
        replace (Nat.eqb j 0) with false in Pb |- *; [exact Pb|]. destruct j; [discriminate|reflexivity].
      - destruct (IHl (S j) ld ltac:(lia)) as (a & Pa & Ra). destruct (IHr j (Nat.eqb j 0) ltac:(lia)) as (b & Pb & Rb).
        exists (AOp op a b). split; [|now constructor]. now apply P_right. }
    destruct (Nat.leb_spec k j) as [L|L]; cbn [negb parens].
    + rewrite orb_false_r. destruct (G lead) as (a & Pa & Ra). exists a. split; [now apply (phrase_down j)|assumption].
    + rewrite orb_true_r. destruct (G true) as (a & Pa & Ra). exists (AOp OParenths a (AScalar n0)). split; [|now constructor].
      apply (phrase_down 10); [lia|]. apply P_atom, A_parenths. constructor. now apply (phrase_down j); [lia|].
  - specialize (IH Hp). destruct (IH 5 false ltac:(lia)) as (b & Pb & Rb).
    assert (G : phrase expression 4 true (ch "-" :: text 5 false t) (AOp ONeg (AScalar n0) b)) by now apply P_neg.
    destruct lead; cbn [andb].
    + destruct (Nat.leb_spec k 4) as [L|L]; cbn [negb parens].
      * eexists. split; [apply (phrase_down 4); [lia|exact G]|now constructor].
      * exists (AOp OParenths (AOp ONeg (AScalar n0) b) (AScalar n0)). split; [|apply R_parenths; now constructor]. apply (phrase_down 10); [lia|]. apply P_atom, A_parenths.
        constructor. apply (phrase_down 4); [lia|exact G].
    + cbn [negb parens]. exists (AOp OParenths (AOp ONeg (AScalar n0) b) (AScalar n0)). split; [|apply R_parenths; now constructor]. apply (phrase_down 10); [lia|]. apply P_atom, A_parenths.
      constructor. apply (phrase_down 4); [lia|exact G].
Qed.

Lemma solid_app s t : solid s -> solid t -> solid (s ++ t).
Proof. intros H H' c Hc. apply in_app_iff in Hc as [Hc|Hc]; auto. Qed.
Lemma solid_cons c t : is_whitespace c = false -> solid t -> solid (c :: t).
Proof. intros H H' x [<-|Hx]; auto. Qed.
Lemma solid_nil : solid []. Proof. intros c []. Qed.
Lemma digit_white c : is_digit c = true -> is_whitespace c = false.
Proof.
  unfold is_digit, is_whitespace, is_ascii. intros H. apply andb_true_iff in H as [H1 H2].
  apply N.leb_le in H1, H2. destruct (N.ltb_spec c 128); [|lia].
  destruct (N.eqb_spec c 32); [lia|]. cbn. destruct (N.leb_spec 9 c), (N.leb_spec c 13); cbn; lia || reflexivity.
Qed.
Lemma text_solid t : proper t -> forall k lead, solid (text k lead t).
Proof.
  assert (Hpar : forall b s, solid s -> solid (parens b s)).
  { intros [] s H; [|exact H]. cbn [parens]. apply solid_cons; [reflexivity|]. apply solid_app; [exact H|]. apply solid_cons; [reflexivity|apply solid_nil]. }
  induction t as [s x|s|j c op l IHl r IHr|t IH]; cbn [proper text]; intros Hp k lead.
  - destruct Hp as [_ [H _]]. rewrite Forall_forall in H. intros c Hc. destruct (H c Hc) as [G| ->]; [now apply digit_white|reflexivity].
  - apply Hp.
  - destruct Hp as (Hop & Hl & Hr). apply Hpar, solid_app; [now apply IHl|]. apply solid_cons; [|now apply IHr].
    clear -Hop. cbn in Hop. repeat (destruct Hop as [Hop|Hop]; [injection Hop as <- <- <-; reflexivity|]). easy.
  - apply Hpar, solid_cons; [reflexivity|]. now apply IH.
Qed.
Lemma solid_blanks s : solid s -> only_blanks s /\ no_blanks s = s.
Proof.
  intros H. split; [intros c Hc Hw; rewrite H in Hw by assumption; discriminate|].
  induction s as [|x s IH]; [reflexivity|]. cbn [no_blanks]. destruct (N.eqb_spec x (ch " ")) as [->|_].
  - specialize (H (ch " ") (or_introl eq_refl)). discriminate.
  - f_equal. apply IH. intros c Hc. apply H. now right.
Qed.
Lemma parse_solid s fuel : solid s -> List.length s < fuel -> parse s = @parse_inner N _ fuel s.
Proof. intros H Hf. destruct (solid_blanks s H) as [H1 H2]. rewrite (parse_fuel s fuel H1); rewrite H2; auto. Qed.

(** The text of any operator tree, with parentheses only where the priority
    table and the associativity of the operators demand them, is parsed to that
    tree. *)
Theorem c03_operator_trees t : proper t -> exists a, parse (text 0 true t) = Ok a /\ reads a t.
Proof.
  intros H. destruct (text_phrase t H 0 true ltac:(lia)) as (a & Pa & Ra). exists a. split; [|exact Ra].
  rewrite (parse_solid _ (S (List.length (text 0 true t)))) by (auto using text_solid; lia).
  apply expression_parse; [now constructor|lia].
Qed.

(** ** C04: surrounding parentheses *)
Theorem c04_parenthesised s : only_blanks s -> paren_balanced s ->
  parse (lit "(" ++ s ++ lit ")") = (do a <- parse s; Ok (AOp OParenths a (AScalar n0))).
Proof. apply parse_parens. Qed.

Theorem c04_same_meaning (a : AST N) z (c : Ctx N) r : outcome (AOp OParenths a (AScalar z)) c r <-> outcome a c r.
Proof.
  assert (G : forall lv, grid OParenths lv [@Scalar N z] = Ok lv).
  { intros lv. apply grid_ok_iff. split; [cbn; lia|]. intros i j x y Hx Hy. exists [x]. split; [reflexivity|]. split; [reflexivity|].
    intros k v Hk. destruct k as [|[|]]; [|discriminate..]. cbn in Hk. injection Hk as <-.
    destruct j as [|[|]]; [|discriminate..]. cbn. now replace ((i * 1 + 0) * 1 + 0) with i by lia. }
  assert (E : forall f, eval (S (S f)) (AOp OParenths a (AScalar z)) c = eval (S f) a c).
  { intros f. unfold eval. change (eval_rec (S (S f)) (AOp OParenths a (AScalar z)) c []) with
      (do lv <- eval_rec (S f) a c []; do rv <- eval_rec (S f) (AScalar z) c []; grid OParenths lv rv).
    destruct (eval_rec (S f) a c []) as [lv| | |]; cbn [bind]; auto. change (eval_rec (S f) (AScalar z) c []) with (@Ok EvalError _ [@Scalar N z]).
    apply G. }
  split; intros [Hr [f0 H]]; split; auto.
  - exists (S f0). intros [|f] Hf; [lia|]. rewrite <- E. apply H. lia.
  - exists (S (S f0)). intros [|[|f]] Hf; [lia..|]. rewrite E. apply H. lia.
Qed.

(** ** C05: unbalanced parentheses and empty text *)
Theorem c05_unmatched_open s : count (ch ")") s < count (ch "(") s -> @parse N _ s = Err UnmatchedOpenDelimiter.
Proof. apply parse_unbalanced. Qed.
Theorem c05_unmatched_close s : count (ch "(") s < count (ch ")") s -> @parse N _ s = Err UnmatchedCloseDelimiter.
Proof. apply parse_unbalanced. Qed.
Theorem c05_empty s : (forall c, In c s -> is_whitespace c = true) -> @parse N _ s = Err EmptyExpr.
Proof.
  intros H. transitivity (@parse N _ []); [|reflexivity].
  rewrite <- (c02_white_space_around s [] []); [now rewrite app_nil_r|exact H|intros c []].
Qed.

(** ** C06: vectors and matrices *)
Lemma parse_fine s a : parse s = Ok a -> all_fine a.
Proof.
  intros E. unfold parse in E. cbv zeta in E.
  pose proof (parse_inner_fine _ (strip_spaces s) (Nat.lt_succ_diag_r _)) as G. rewrite E in G. exact G.
Qed.
Theorem c06_matrices_rectangular s a m : parse s = Ok a -> node (AMatrix m) a ->
  exists r c, 0 < r /\ 0 < c /\ shape m r c.
Proof.
  intros E Hn. apply parse_fine in E. pose proof (E _ Hn) as G. cbn in G. destruct G as (Hne & k & Hk & G).
  exists (List.length m), k. split; [destruct m; [congruence|cbn; lia]|]. split; [lia|]. split; [reflexivity|]. apply Forall_forall. exact G.
Qed.
Theorem c06_vectors_non_empty s a v : parse s = Ok a -> node (AVector v) a -> v <> [].
Proof. intros E Hn. apply parse_fine in E. exact (E _ Hn). Qed.

Lemma join_solid ss : Forall solid ss -> solid (join [44%N] ss).
Proof.
  intros H. induction H as [|s ss Hs H IH]; [apply solid_nil|]. destruct ss as [|s2 ss]; [exact Hs|].
  change (join [44%N] (s :: s2 :: ss)) with (s ++ 44%N :: join [44%N] (s2 :: ss)). apply solid_app; [exact Hs|]. now apply solid_cons.
Qed.
Lemma mapM_parse_inner ss n : Forall solid ss -> List.length (join [44%N] ss) < n -> mapM (parse_inner n) ss = mapM (@parse N _) ss.
Proof.
  intros H Hn. apply mapM_ext. intros s Hs. rewrite Forall_forall in H. symmetry. apply parse_solid; [now apply H|].
  pose proof (proj2 (join_pieces [44%N] ss s Hs)). lia.
Qed.
Lemma args_neutral ss : Forall arg_text ss -> Forall neutral ss.
Proof. apply Forall_impl. apply arg_text_neutral. Qed.
Lemma parse_unfold pre ss post : solid pre -> solid post -> Forall solid ss ->
  @parse N _ (pre ++ join [44%N] ss ++ post) = parse_body (parse_inner (S (List.length (pre ++ join [44%N] ss ++ post)))) (pre ++ join [44%N] ss ++ post).
Proof.
  intros H1 H2 H3. rewrite (parse_solid _ (S (S (List.length (pre ++ join [44%N] ss ++ post))))); [reflexivity| |lia].
  auto using solid_app, join_solid.
Qed.
Lemma join_len_mid pre ss post : List.length (join [44%N] ss) < S (List.length (pre ++ join [44%N] ss ++ post)).
Proof. rewrite !app_length. lia. Qed.

Section Literal.
(** The literal [[s_1, ..., s_n]] of [n > 0] non-empty items. *)
Variables (ss : list str) (items : list (AST N)).
Hypothesis Hne : ss <> [].
Hypothesis Hss : Forall (fun s => arg_text s /\ ascii_text s /\ solid s /\ s <> []) ss.
Hypothesis Hitems : Forall2 (fun s a => parse s = Ok a) ss items.

Lemma literal_body : parse (lit "[" ++ join (lit ",") ss ++ lit "]") =
  (let is_vec := forallb (fun a => match a with AVector _ => false | _ => true end) items in
        let is_mat := forallb (fun a => match a with AMatrix _ => false | _ => true end) items in
        if (is_vec && is_mat)%bool then Ok (AVector items)
        else if (is_mat && negb is_vec)%bool then
          do m <- mapM (fun a => match a with AVector v => Ok v | _ => Err NotRectMatrix end) items;
          do size <- (do r <- idx m 0; Ok (List.length r));
          if negb (forallb (fun r => Nat.eqb (List.length r) size) m) then Err NotRectMatrix
          else if row_major then Ok (AMatrix m)
          else do c <- transpose_lit m; Ok (AMatrix c)
        else Err (ParseValue (91%N :: join [44%N] ss ++ [93%N]))).
Proof.
  assert (H1 : Forall neutral ss) by (eapply Forall_impl; [|exact Hss]; cbn; intros s H; now apply arg_text_neutral).
  assert (H2 : Forall ascii_text ss) by (eapply Forall_impl; [|exact Hss]; cbn; tauto).
  assert (H3 : Forall solid ss) by (eapply Forall_impl; [|exact Hss]; cbn; tauto).
  assert (H4 : Forall (fun s => s <> []) ss) by (eapply Forall_impl; [|exact Hss]; cbn; tauto).
  change (lit "[") with [91%N]. change (lit ",") with [44%N]. change (lit "]") with [93%N].
  rewrite parse_unfold by (auto; now intros c [<-|[]]).
  cbn [app]. rewrite body_bracket, nonempty_head by assumption.
  rewrite mapM_parse_inner by (auto; apply (join_len_mid [91%N] ss [93%N])).
  rewrite (proj2 (mapM_ok_iff (@parse N _) ss items) Hitems). reflexivity.
Qed.

Theorem c06_vector_literal :
  (forall a, In a items -> match a with AVector _ | AMatrix _ => False | _ => True end) ->
  parse (lit "[" ++ join (lit ",") ss ++ lit "]") = Ok (AVector items).
Proof.
  intros H. rewrite literal_body. cbv zeta.
  replace (forallb _ items) with true; [replace (forallb _ items) with true; [reflexivity|]|]; symmetry; apply forallb_forall; intros a Ha;
    specialize (H a Ha); now destruct a.
Qed.

Theorem c06_matrix_literal vs r c : items = map AVector vs -> 0 < r -> 0 < c -> shape vs r c ->
  exists m, parse (lit "[" ++ join (lit ",") ss ++ lit "]") = Ok (AMatrix m) /\
    if row_major then m = vs else shape m c r /\ transpose_of vs m.
Proof.
  intros Hi Hr Hc Hsh.
  set (tr := map (fun i => map (fun row => nth i row (AScalar n0)) vs) (seq 0 c)).
  assert (Htr : shape tr c r /\ transpose_of vs tr).
  { destruct Hsh as [S1 S2]. split; [split|].
    - unfold tr. now rewrite map_length, seq_length.
    - apply Forall_forall. intros x Hx. unfold tr in Hx. apply in_map_iff in Hx as (i & <- & _). now rewrite map_length.
    - intros i j. unfold tr. rewrite nth_error_map.
      destruct (Nat.lt_ge_cases i c) as [L|L].
      + rewrite (nth_error_nth' (seq 0 c) 0) by now rewrite seq_length. rewrite seq_nth by assumption. cbn [option_map Nat.add].
        rewrite nth_error_map. destruct (nth_error vs j) as [row|] eqn:E; [|reflexivity]. cbn [option_map].
        symmetry. apply nth_error_nth'. apply nth_error_In in E. rewrite Forall_forall in S2. now rewrite (S2 row E).
      + rewrite (proj2 (nth_error_None (seq 0 c) i)) by now rewrite seq_length. cbn [option_map].
        destruct (nth_error vs j) as [row|] eqn:E; [|reflexivity]. symmetry. apply nth_error_None.
        apply nth_error_In in E. rewrite Forall_forall in S2. now rewrite (S2 row E). }
  exists (if row_major then vs else tr). split; [|destruct row_major; auto].
  rewrite literal_body. cbv zeta. rewrite Hi. destruct Hsh as [S1 S2].
  destruct vs as [|v vs']; [cbn in S1; lia|]. set (vs := v :: vs') in *.
  change (forallb (fun a : AST N => match a with AVector _ => false | _ => true end) (map AVector vs)) with false.
  replace (forallb _ (map AVector vs)) with true.
  2:{ symmetry; apply forallb_forall. intros a Ha. apply in_map_iff in Ha as (w & <- & _). reflexivity. }
  cbn [andb negb]. rewrite map_vec_mapM. cbn [bind]. unfold idx at 1. unfold vs at 1. cbn [nth_error unwrap bind].
  replace (forallb _ vs) with true.
  2:{ symmetry; apply forallb_forall. intros w Hw. apply Nat.eqb_eq. rewrite Forall_forall in S2. rewrite (S2 w Hw). symmetry. apply S2. now left. }
  cbn [negb]. destruct row_major; [reflexivity|]. destruct Htr as [T1 T2].
  rewrite (transpose_lit_eq vs tr r c); [reflexivity|assumption..|split; assumption|assumption|assumption].
Qed.

Theorem c06_ragged_literal v b : (forall m, ~ In (AMatrix m) items) ->
  In (AVector v) items -> In b items -> (forall w, b = AVector w -> List.length w <> List.length v) ->
  parse (lit "[" ++ join (lit ",") ss ++ lit "]") = Err NotRectMatrix.
Proof.
  intros Hm Hv Hb Hd. rewrite literal_body. cbv zeta.
  replace (forallb (fun a : AST N => match a with AVector _ => false | _ => true end) items) with false.
  2:{ symmetry. apply not_true_iff_false. intros H. rewrite forallb_forall in H. specialize (H _ Hv). discriminate. }
  replace (forallb _ items) with true.
  2:{ symmetry. apply forallb_forall. intros a Ha. destruct a; try reflexivity. exfalso. now apply (Hm m). }
  cbn [andb negb].
  destruct (mapM _ items) as [m|e| |] eqn:E; cbn [bind].
  - apply mapM_ok_iff in E. assert (Em : items = map AVector m).
    { clear -E. induction E as [|a l la ll H E IH]; [reflexivity|]. cbn [map]. rewrite <- IH. destruct a; try discriminate. congruence. }
    rewrite Em in Hv, Hb. apply in_map_iff in Hv as (v' & [= ->] & Hv). apply in_map_iff in Hb as (w & <- & Hw).
    destruct m as [|r0 m]; [easy|]. unfold idx. cbn [nth_error unwrap bind].
    replace (forallb _ (r0 :: m)) with false; [reflexivity|]. symmetry. apply not_true_iff_false. intros H. rewrite forallb_forall in H.
    pose proof (H v Hv) as G1. pose proof (H w Hw) as G2. apply Nat.eqb_eq in G1, G2. apply (Hd w eq_refl). congruence.
  - apply mapM_err_iff in E as (l1 & x & l2 & ys & _ & _ & Hx). destruct x; congruence.
  - exfalso. revert E. apply mapM_no_panic. intros a _. now destruct a.
  - exfalso. revert E. apply mapM_no_fuel. intros a _. now destruct a.
Qed.
End Literal.

(** ** C07: names *)
Lemma valid_go_rule cs : forall d p, valid_name_go cs d p = true -> forall q x r, cs = q ++ x :: r ->
  (d + brace_depth q = 0)%Z -> ~ operator_char x /\ x <> ch "=" /\ (is_numeric x = true -> last q p = 95%N).
Proof.
  induction cs as [|i cs IH]; intros d p H q x r E Hd; [destruct q; discriminate|].
  cbn [valid_name_go] in H.
  destruct q as [|y q].
  - cbn in E. injection E as <- <-. cbn [last]. change (brace_depth []) with 0%Z in Hd. assert (d = 0)%Z by lia. subst d.
    assert (Hi : is_op_or_eq i = true \/ is_numeric i = true -> N.eqb i 123 = false /\ N.eqb i 125 = false).
    { intros [G|G].
      - split; apply N.eqb_neq; intros ->; vm_compute in G; discriminate.
      - split; apply N.eqb_neq; intros ->; vm_compute in G; discriminate. }
    assert (Ho : is_op_or_eq i = false).
    { destruct (is_op_or_eq i) eqn:G; [|reflexivity]. destruct (Hi (or_introl eq_refl)) as [E1 E2]. rewrite E1, E2 in H. discriminate. }
    rewrite Ho in H. cbn [andb] in H. split; [|split].
    + intros G. unfold operator_char in G. cbn in G. repeat (destruct G as [G|G]; [subst i; vm_compute in Ho; discriminate|]). easy.
    + intros ->. vm_compute in Ho. discriminate.
    + intros G. rewrite G in H. destruct (Hi (or_intror G)) as [E1 E2]. rewrite E1, E2 in H. cbn [Z.eqb andb] in H.
      destruct (N.eqb_spec p 95); [assumption|discriminate].
  - cbn in E. injection E as <- E. rewrite last_cons.
    set (d1 := if N.eqb i 123 then (d + 1)%Z else d) in H. set (d2 := if N.eqb i 125 then (d1 - 1)%Z else d1) in H.
    destruct (is_op_or_eq i && Z.eqb d2 0)%bool; [discriminate|]. destruct (is_numeric i && Z.eqb d2 0 && negb (N.eqb p 95))%bool; [discriminate|].
    apply (IH _ _ H q x r E). rewrite <- Hd. unfold brace_depth, d2, d1. cbn [count]. change (ch "{") with 123%N. change (ch "}") with 125%N.
    destruct (N.eqb_spec i 123) as [?|?]; destruct (N.eqb_spec i 125) as [?|?]; try lia.
Qed.
Lemma valid_rule n : @is_valid_var_name _ ParserError n = Ok true -> naming_rule n.
Proof.
  unfold is_valid_var_name. destruct n as [|c t]; [discriminate|].
  destruct (negb (is_alphabetic c) && negb (N.eqb c 92))%bool eqn:E; [discriminate|]. intros H. assert (H0 : valid_name_go (c :: t) 0 92%N = true) by congruence. clear H. rename H0 into H. split.
  - exists c, t. split; [reflexivity|]. destruct (is_alphabetic c); [now left|]. cbn in E. right.
    apply negb_false_iff in E. now apply N.eqb_eq in E.
  - intros p x q Ep Hd. destruct (valid_go_rule _ _ _ H p x q Ep Hd) as (H1 & H2 & H3). split; [exact H1|]. split; [exact H2|].
    intros Hn. specialize (H3 Hn). destruct (exists_last (l := p)) as (p' & y & ->).
    + intros ->. cbn in H3. discriminate.
    + exists p'. rewrite last_last in H3. now subst y.
Qed.
Theorem c07_variable_names s a n : parse s = Ok a -> node (AVar n) a -> naming_rule n.
Proof. intros E Hn. apply parse_fine in E. apply valid_rule. exact (E _ Hn). Qed.
Theorem c07_function_names s a n args : parse s = Ok a -> node (AFun n args) a -> naming_rule n /\ args <> [].
Proof. intros E Hn. apply parse_fine in E. destruct (E _ Hn). split; [now apply valid_rule|assumption]. Qed.
(** Conversely every name of the grammar is accepted. *)
Theorem c07_names_accepted n : name n -> solid n -> parse n = Ok (AVar n).
Proof.
  intros H Hs. rewrite (parse_solid n (S (List.length n))) by (auto; lia). apply expression_parse; [|lia].
  constructor. apply (phrase_down 10); [lia|]. now apply P_atom, A_variable.
Qed.

(** ** C08: argument lists *)
Theorem c08_split_of_join ss : ss <> [] -> Forall arg_text ss -> get_args (join (lit ",") ss) = ss.
Proof. intros H H'. apply get_args_of_join; [exact H|now apply args_neutral]. Qed.
Theorem c08_join_of_split s : join (lit ",") (get_args s) = s.
Proof. apply get_args_join. Qed.

Theorem c08_call f ss : name f -> ascii_text f -> ~ In f (map lit reserved) -> solid f ->
  ss <> [] -> Forall (fun s => arg_text s /\ solid s) ss ->
  parse (f ++ lit "(" ++ join (lit ",") ss ++ lit ")") = (do args <- mapM parse ss; Ok (AFun f args)).
Proof.
  intros Hf Ha Hr Hs Hne Hss.
  assert (H1 : Forall neutral ss) by (eapply Forall_impl; [|exact Hss]; cbn; intros s H; now apply arg_text_neutral).
  assert (H3 : Forall solid ss) by (eapply Forall_impl; [|exact Hss]; cbn; tauto).
  change (lit ",") with [44%N]. change (lit "(") with [40%N]. change (lit ")") with [41%N].
  rewrite (app_assoc f). rewrite parse_unfold by (auto; try apply solid_app; auto; now intros c [<-|[]]).
  rewrite <- (mapM_parse_inner ss _ H3 (join_len_mid (f ++ [40%N]) ss [41%N])).
  rewrite <- app_assoc. cbn [app]. now rewrite body_user_call_gen.
Qed.
Theorem c08_list ss : ss <> [] -> Forall (fun s => arg_text s /\ solid s) ss ->
  parse (lit "{" ++ join (lit ",") ss ++ lit "}") = (do es <- mapM parse ss; Ok (@AList N es)).
Proof.
  intros Hne Hss.
  assert (H1 : Forall neutral ss) by (eapply Forall_impl; [|exact Hss]; cbn; intros s H; now apply arg_text_neutral).
  assert (H3 : Forall solid ss) by (eapply Forall_impl; [|exact Hss]; cbn; tauto).
  change (lit ",") with [44%N]. change (lit "{") with [123%N]. change (lit "}") with [125%N].
  rewrite parse_unfold by (auto; now intros c [<-|[]]).
  rewrite <- (mapM_parse_inner ss _ H3 (join_len_mid [123%N] ss [125%N])).
  cbn [app]. now rewrite body_list_gen.
Qed.

(** ** C09: built-in operators with several arguments *)
Lemma builtin_unfold f ss : In f ["root"; "D"; "I"] -> Forall (fun s => arg_text s /\ solid s) ss ->
  parse (lit f ++ lit "(" ++ join (lit ",") ss ++ lit ")") =
  parse_body (parse_inner (S (List.length ((lit f ++ [40%N]) ++ join [44%N] ss ++ [41%N])))) (lit f ++ 40%N :: join [44%N] ss ++ [41%N]).
Proof.
  intros Hf Hss.
  assert (H3 : Forall solid ss) by (eapply Forall_impl; [|exact Hss]; cbn; tauto).
  change (lit ",") with [44%N]. change (lit "(") with [40%N]. change (lit ")") with [41%N].
  rewrite (app_assoc (lit f)). rewrite parse_unfold.
  - rewrite <- app_assoc. reflexivity.
  - apply solid_app; [|now intros c [<-|[]]]. cbn in Hf. intros c Hc.
    destruct Hf as [<-|[<-|[<-|[]]]]; cbn in Hc; repeat (destruct Hc as [<-|Hc]; [reflexivity|]); destruct Hc.
  - now intros c [<-|[]].
  - exact H3.
Qed.
Lemma one_neutral ss : Forall (fun s => arg_text s /\ solid s) ss -> Forall neutral ss.
Proof. intros Hss. eapply Forall_impl; [|exact Hss]. cbn. intros s H. now apply arg_text_neutral. Qed.

Theorem c09_root_arguments ss : ss <> [] -> Forall (fun s => arg_text s /\ solid s) ss ->
  parse (lit "root" ++ lit "(" ++ join (lit ",") ss ++ lit ")") =
  match ss with
  | [s; t] => do a <- parse s; do b <- parse t; Ok (AOp ORoot a b)
  | _ => Err (PWrongNumberOfArgs (lit "root"))
  end.
Proof.
  intros Hne Hss. rewrite builtin_unfold by (cbn; tauto). rewrite body_root_gen by auto using one_neutral.
  set (n := S _). assert (Hn : List.length (join [44%N] ss) < n) by apply join_len_mid. clearbody n.
  destruct ss as [|s [|t [|? ?]]]; try reflexivity. inversion Hss as [|? ? [_ H1] Hss2]; subst. inversion Hss2 as [|? ? [_ H2] _]; subst.
  cbn [join] in Hn. rewrite !app_length in Hn. rewrite <- !(parse_solid _ n) by (auto; lia). reflexivity.
Qed.
Theorem c09_derivative_arguments ss : ss <> [] -> Forall (fun s => arg_text s /\ solid s) ss ->
  parse (lit "D" ++ lit "(" ++ join (lit ",") ss ++ lit ")") =
  match ss with
  | [f; x; p] => do a <- parse f; do b <- parse p; Ok (ADer a x b)
  | _ => Err (PWrongNumberOfArgs (lit "derivative"))
  end.
Proof.
  intros Hne Hss. rewrite builtin_unfold by (cbn; tauto). rewrite (body_adv _ AdvDerivative "D") by (auto using one_neutral; cbn; tauto).
  set (n := S _). assert (Hn : List.length (join [44%N] ss) < n) by apply join_len_mid. clearbody n.
  destruct ss as [|s [|t [|u [|? ?]]]]; try reflexivity. inversion Hss as [|? ? [_ H1] Hss2]; subst. inversion Hss2 as [|? ? [_ H2] Hss3]; subst.
  inversion Hss3 as [|? ? [_ H3] _]; subst.
  cbn [join] in Hn. rewrite !app_length in Hn. rewrite <- !(parse_solid _ n) by (auto; lia). reflexivity.
Qed.
Theorem c09_integral_arguments ss : ss <> [] -> Forall (fun s => arg_text s /\ solid s) ss ->
  parse (lit "I" ++ lit "(" ++ join (lit ",") ss ++ lit ")") =
  match ss with
  | [f; x; l; u] => do a <- parse f; do b <- parse l; do c <- parse u; Ok (AInt a x b c)
  | _ => Err (PWrongNumberOfArgs (lit "integral"))
  end.
Proof.
  intros Hne Hss. rewrite builtin_unfold by (cbn; tauto). rewrite (body_adv _ AdvIntegral "I") by (auto using one_neutral; cbn; tauto).
  set (n := S _). assert (Hn : List.length (join [44%N] ss) < n) by apply join_len_mid. clearbody n.
  destruct ss as [|s [|t [|u [|v [|? ?]]]]]; try reflexivity. inversion Hss as [|? ? [_ H1] Hss2]; subst. inversion Hss2 as [|? ? [_ H2] Hss3]; subst.
  inversion Hss3 as [|? ? [_ H3] Hss4]; subst. inversion Hss4 as [|? ? [_ H4] _]; subst.
  cbn [join] in Hn. rewrite !app_length in Hn. rewrite <- !(parse_solid _ n) by (auto; lia). reflexivity.
Qed.
End Props.

(** ** Concrete cases

    [NT]/[ET] is a build with binary64 numbers and default features; [tree_of]
    prints a tree with all its structure. *)
Module Examples.
Definition op_text (op : SimpleOp) : str :=
  match op with
  | OAdd => lit "+" | OSub => lit "-" | OAddSub => lit "&" | OMult => lit "*" | ONeg => lit "neg" | ODiv => lit "/"
  | OCross => lit "#" | OHiddenMult => lit "." | OPow => lit "^" | OGet => lit "?" | OParenths => lit "paren"
  | ORoot => lit "root" | OSin => lit "sin" | OCos => lit "cos" | _ => lit "other"
  end.
Fixpoint tree_of (a : AST NT) : str :=
  match a with
  | AScalar x => @nshow NT x
  | AVar n => n
  | AVector v => lit "<" ++ join (lit " ") (map tree_of v) ++ lit ">"
  | AMatrix m => lit "<" ++ join (lit ";") (map (fun r => join (lit " ") (map tree_of r)) m) ++ lit ">"
  | AList l => lit "{" ++ join (lit " ") (map tree_of l) ++ lit "}"
  | AFun n l => lit "{call " ++ n ++ lit " " ++ join (lit " ") (map tree_of l) ++ lit "}"
  | AOp op l r => lit "{" ++ op_text op ++ lit " " ++ tree_of l ++ lit " " ++ tree_of r ++ lit "}"
  | AInt e x l u => lit "{I " ++ tree_of e ++ lit " " ++ x ++ lit " " ++ tree_of l ++ lit " " ++ tree_of u ++ lit "}"
  | ADer e x p => lit "{D " ++ tree_of e ++ lit " " ++ x ++ lit " " ++ tree_of p ++ lit "}"
  | AEq q sv => lit "{eq " ++ join (lit ",") (map (fun e => tree_of (fst e) ++ lit "=" ++ tree_of (snd e)) q ++ sv) ++ lit "}"
  end.
Definition shown (r : res ParserError (AST NT)) : option str :=
  match r with Ok a => Some (tree_of a) | _ => None end.
(** As [ET], knowing that U+00E4 is a letter. *)
Definition EU : Env := {| high_prec := false; row_major := false;
  uni_alpha := fun c => N.eqb c 228; uni_numeric := fun _ => false; uni_white := fun _ => false |}.

(** C01 *)
Example ascii_parses : shown (@parse NT ET (lit "2x+sin(3)")) = Some (lit "{+ {. 2 x} {sin 3 0}}").
Proof. vm_compute. reflexivity. Qed.
Theorem c01_panic_on_non_ascii_literal : @parse NT EU (lit "[" ++ [228%N] ++ lit "]") = Panic.
Proof. apply is_panic_eq. vm_compute. reflexivity. Qed.
Theorem c01_panic_on_non_ascii_call : @parse NT EU ([228%N; 228%N] ++ lit "(x)") = Panic.
Proof. apply is_panic_eq. vm_compute. reflexivity. Qed.

(** C02 *)
Example blanks : no_blanks (lit " 1 +  2 ") = lit "1+2". Proof. reflexivity. Qed.
Example blanks_parse : shown (@parse NT ET (lit " 1 +  2 ")) = Some (lit "{+ 1 2}").
Proof. vm_compute. reflexivity. Qed.

(** C03: a tree that needs parentheses in some places and not in others. *)
Definition n_ (s : string) : @tree NT := TNum (lit s) (match @nparse NT (lit s) with Some x => x | None => @n0 NT end).
Definition v_ (s : string) : @tree NT := TName (lit s).
Definition o_ (k : nat) (c : string) (op : SimpleOp) (l r : @tree NT) := TOp k (ch c) op l r.
Definition sample : @tree NT :=
  o_ 0 "+" OAdd
    (o_ 1 "-" OSub (o_ 1 "-" OSub (TNeg (v_ "a")) (v_ "b_1")) (o_ 1 "-" OSub (n_ "3") (v_ "d")))
    (o_ 5 "/" ODiv (o_ 3 "*" OMult (n_ "2.5") (TNeg (v_ "\alpha")))
       (o_ 8 "^" OPow (o_ 8 "^" OPow (v_ "x") (n_ "2")) (o_ 8 "^" OPow (v_ "y") (n_ "3")))).
Example sample_text : text 0 true sample = lit "-a-b_1-(3-d)+(2.5*(-\alpha))/(x^2)^y^3".
Proof. vm_compute. reflexivity. Qed.
Lemma num_ok s : (match lit s with [] => false | _ => true end && forallb (fun c => is_digit c || N.eqb c 46) (lit s)
    && match @nparse NT (lit s) with Some _ => true | None => false end)%bool = true -> @proper NT ET (n_ s).
Proof.
  intros H. apply andb_true_iff in H as [H H3]. apply andb_true_iff in H as [H1 H2]. unfold n_. cbn [proper].
  split; [intros E; rewrite E in H1; discriminate|]. split.
  - apply Forall_forall. intros c Hc. rewrite forallb_forall in H2. specialize (H2 c Hc). apply orb_true_iff in H2 as [H2|H2]; [now left|].
    right. now apply N.eqb_eq in H2.
  - destruct (nparse (lit s)); [reflexivity|discriminate].
Qed.
Lemma letters_ok s : (match lit s with [] => false | _ => true end && forallb letter (lit s))%bool = true -> @proper NT ET (v_ s).
Proof.
  intros H. apply andb_true_iff in H as [H1 H2]. cbn [v_ proper]. split.
  - apply letters_name; [intros E; rewrite E in H1; discriminate|exact H2].
  - intros c Hc. rewrite forallb_forall in H2. specialize (H2 c Hc). destruct (is_whitespace c) eqn:E; [|reflexivity].
    exfalso. unfold letter in H2. unfold is_whitespace, is_ascii in E.
    destruct (N.leb_spec 65 c), (N.leb_spec c 90), (N.leb_spec 97 c), (N.leb_spec c 122); cbn in H2; try discriminate;
    destruct (N.ltb_spec c 128); try lia; destruct (N.eqb_spec c 32); try lia; destruct (N.leb_spec 9 c), (N.leb_spec c 13); cbn in E; try discriminate; lia.
Qed.
Example sample_proper : @proper NT ET sample.
Proof.
  unfold sample, o_. cbn [proper].
  assert (Hb : @proper NT ET (v_ "b_1")).
  { split.
    - exists (ch "b"), (lit "_1"). split; [reflexivity|]. split; [now left|]. split.
      + apply letter_plain. reflexivity.
      + apply (NR_index (ch "1") []); [reflexivity|constructor].
    - intros c Hc. cbn in Hc. repeat (destruct Hc as [<-|Hc]; [reflexivity|]). destruct Hc. }
  assert (Ha : @proper NT ET (v_ "\alpha")).
  { split.
    - exists (ch "\"), (lit "alpha"). split; [reflexivity|]. split; [now right|]. split.
      + repeat split; try (vm_compute; intuition discriminate).
      + cbn. repeat (constructor; [apply letter_plain; reflexivity|]). constructor.
    - intros c Hc. cbn in Hc. repeat (destruct Hc as [<-|Hc]; [reflexivity|]). destruct Hc. }
  repeat match goal with
  | |- _ /\ _ => split
  | |- In _ operators => cbn; tauto
  | |- proper (v_ "b_1") => exact Hb
  | |- proper (v_ "\alpha") => exact Ha
  | |- proper (n_ _) => apply num_ok; vm_compute; reflexivity
  | |- proper (v_ _) => apply letters_ok; vm_compute; reflexivity
  | |- proper (TNeg _) => cbn [proper]
  end.
Qed.
Example sample_parse : shown (@parse NT ET (text 0 true sample)) =
  Some (lit "{+ {- {- {neg 0 a} b_1} {paren {- 3 d} 0}} {/ {paren {* 2.5 {paren {neg 0 \alpha} 0}} 0} {^ {paren {^ x 2} 0} {^ y 3}}}}").
Proof. vm_compute. reflexivity. Qed.

(** Division groups to the right: [8/4/2] is [8/(4/2)] = 4, not 1. *)
Theorem c03_division_groups_right : shown (@parse NT ET (lit "8/4/2")) = Some (lit "{/ 8 {/ 4 2}}").
Proof. vm_compute. reflexivity. Qed.
Theorem c03_division_groups_right_value :
  @quick_eval NT ET 10 (lit "8/4/2") (@ctx_empty NT) = Ok [sc 4].
Proof. apply res_same_ok. vm_compute. reflexivity. Qed.
(** A product is below a sign and above a subtraction: [-2*3] is [(-2)*3]. *)
Example neg_product : shown (@parse NT ET (lit "-2*3")) = Some (lit "{* {neg 0 2} 3}").
Proof. vm_compute. reflexivity. Qed.
(** A sign after an operator other than ['+'] is not read as a sign: *)
Theorem c03_sign_after_operator_rejected :
  err_of (@parse NT ET (lit "3*-2")) <> None /\ err_of (@parse NT ET (lit "2^-1")) <> None.
Proof. split; vm_compute; discriminate. Qed.
(** [*3] is accepted and means [0*3]. *)
Theorem c03_leading_operator_accepted : shown (@parse NT ET (lit "*3")) = Some (lit "{* 0 3}").
Proof. vm_compute. reflexivity. Qed.
(** A letter after [')'] is no product: the text becomes the argument of the
    first function. *)
Theorem c03_adjacent_calls_misread : shown (@parse NT ET (lit "sin(x)cos(x)")) = Some (lit "{sin x)cos(x 0}").
Proof. vm_compute. reflexivity. Qed.
(** The grammar: a call, a matrix and an equation. *)
Example grammar_sample : shown (@parse NT ET (lit "2f(x,[[1,2],[3,4]])-eq(x^2=4,x)?0")) =
  Some (lit "{- {. 2 {call f x <1 3;2 4>}} {? {eq {^ x 2}=4,x} 0}}").
Proof. vm_compute. reflexivity. Qed.

(** C04 *)
Example balanced : only_blanks (En := ET) (lit "(a+ b)*2") /\ paren_balanced (lit "(a+ b)*2").
Proof.
  split.
  - intros c Hc. cbn in Hc. repeat (destruct Hc as [<-|Hc]; [vm_compute; congruence|]). destruct Hc.
  - split; [reflexivity|]. intros p q E.
    do 8 (destruct p as [|? p]; [vm_compute; lia|injection E as <- E]). destruct p; [vm_compute; lia|discriminate].
Qed.
(** Without the condition on the parentheses: [a)(b] is accepted as a name, and in
    parentheses it is a product. *)
Theorem c04_unbalanced_name : shown (@parse NT ET (lit "a)(b")) = Some (lit "a)(b") /\
  shown (@parse NT ET (lit "(a)(b)")) = Some (lit "{. {paren a 0} {paren b 0}}").
Proof. split; vm_compute; reflexivity. Qed.

(** C05 *)
Example unmatched : @parse NT ET (lit "(1+2))(") <> @parse NT ET (lit "((1+2)").
Proof. rewrite (c05_unmatched_open (lit "((1+2)")) by (vm_compute; lia).
  intros H. apply (f_equal err_of) in H. revert H. vm_compute. discriminate. Qed.

(** C06 *)
Example matrix_columns : shown (@parse NT ET (lit "[[1,2],[3,4],[5,6]]")) = Some (lit "<1 3 5;2 4 6>").
Proof. vm_compute. reflexivity. Qed.
Example matrix_rows : shown (@parse NT ETrow (lit "[[1,2],[3,4],[5,6]]")) = Some (lit "<1 2;3 4;5 6>").
Proof. vm_compute. reflexivity. Qed.
Example ragged : @parse NT ET (lit "[[1,2],[3]]") = Err NotRectMatrix /\ @parse NT ET (lit "[[1,2],3]") = Err NotRectMatrix.
Proof. split; apply err_of_eq; vm_compute; reflexivity. Qed.

(** C07 *)
Example names_rejected : err_of (@parse NT ET (lit "x2")) = Some (InvalidVariableName (lit "x2")).
Proof. vm_compute. reflexivity. Qed.
Example names_accepted : shown (@parse NT ET (lit "x_{1+2}")) = Some (lit "x_{1+2}") /\ shown (@parse NT ET (lit "x_2")) = Some (lit "x_2").
Proof. split; vm_compute; reflexivity. Qed.
(** The variable of a derivative and the search variables are not checked. *)
Theorem c07_derivative_variable_unchecked : shown (@parse NT ET (lit "D(x,1+1,2)")) = Some (lit "{D x 1+1 2}").
Proof. vm_compute. reflexivity. Qed.

(** C08 *)
Example arguments : Forall arg_text [lit "[1,2]"; lit "g(x,y)"; lit "3"].
Proof.
  assert (P1 : forall c, existsb (N.eqb c) (ch "," :: brackets) = false -> ~ In c brackets /\ c <> ch ",").
  { intros c H. cbn [existsb] in H. apply orb_false_iff in H as [H1 H2]. split; [|now apply N.eqb_neq].
    intros Hc. rewrite <- not_true_iff_false in H2. apply H2. apply existsb_exists. exists c. split; [exact Hc|apply N.eqb_refl]. }
  assert (P2 : forall c, existsb (N.eqb c) brackets = false -> ~ In c brackets).
  { intros c H Hc. rewrite <- not_true_iff_false in H. apply H. apply existsb_exists. exists c. split; [exact Hc|apply N.eqb_refl]. }
  constructor; [|constructor; [|constructor; [|constructor]]].
  - apply (AT_group (ch "[") (ch "]") (lit "1,2") []); [cbn; tauto| |constructor].
    repeat (apply GT_char; [apply P2; reflexivity|]). constructor.
  - apply AT_char; [apply P1; reflexivity..|].
    apply (AT_group (ch "(") (ch ")") (lit "x,y") []); [cbn; tauto| |constructor].
    repeat (apply GT_char; [apply P2; reflexivity|]). constructor.
  - apply AT_char; [apply P1; reflexivity..|]. constructor.
Qed.
(** A second ['='] in an equation is dropped silently. *)
Theorem c08_extra_equals_dropped : shown (@parse NT ET (lit "eq(x=1=2,x)")) = shown (@parse NT ET (lit "eq(x=1,x)"))
  /\ shown (@parse NT ET (lit "eq(x=1=2,x)")) <> None.
Proof. split; vm_compute; [reflexivity|discriminate]. Qed.

(** C09 *)
Example root_one_argument : @parse NT ET (lit "root(4)") = Err (PWrongNumberOfArgs (lit "root")).
Proof. apply err_of_eq. vm_compute. reflexivity. Qed.
Example derivative_two_arguments : @parse NT ET (lit "D(x^2,x)") = Err (PWrongNumberOfArgs (lit "derivative")).
Proof. apply err_of_eq. vm_compute. reflexivity. Qed.
End Examples.
