(** * PropRoundTrip: C41 - printed values read back. *)
From Coq Require Import List NArith ZArith Bool String Arith Lia SpecFloat.
From Verif Require Import Base BaseFacts F64 Num Types Maths Helpers Parser Eval Print SpecEval EvalProofs EvalTotal
  ParserBase GrammarSpec ParserSpec ParserGrammar ParserGrammar2 ParserGrammar3 ParserTop PropEval PropParser
  FloatFacts PropFloat DecimalText DecimalFloat Toy.
Import ListNotations.
Local Open Scope string_scope.
Local Open Scope list_scope.

Lemma ok_eq {E A} (x y : A) : @Ok E A x = Ok y -> x = y.
Proof. congruence. Qed.
Lemma transpose_exists {A} (d : A) (m : list (list A)) r c : shape m r c -> exists m', shape m' c r /\ transpose_of m m'.
Proof.
  intros [S1 S2]. set (tr := map (fun i => map (fun row => nth i row d) m) (seq 0 c)). exists tr. split; [split|].
  - unfold tr. now rewrite map_length, seq_length.
  - unfold tr. apply Forall_forall. intros l Hl. apply in_map_iff in Hl as (i & <- & _). now rewrite map_length.
  - intros i j. unfold tr. rewrite nth_error_map.
    destruct (Nat.lt_ge_cases i c) as [Hi|Hi].
    + rewrite (nth_error_nth' (seq 0 c) 0) by now rewrite seq_length. rewrite seq_nth by assumption. cbn [option_map Nat.add].
      rewrite nth_error_map. destruct (nth_error m j) as [row|] eqn:E; [|reflexivity]. cbn [option_map].
      symmetry. apply nth_error_nth'. apply nth_error_In in E. rewrite Forall_forall in S2. now rewrite (S2 row E).
    + rewrite (proj2 (nth_error_None (seq 0 c) i)) by now rewrite seq_length. cbn [option_map].
      destruct (nth_error m j) as [row|] eqn:E; [|reflexivity]. symmetry. apply nth_error_None.
      apply nth_error_In in E. rewrite Forall_forall in S2. now rewrite (S2 row E).
Qed.
Lemma transpose_map {A B} (f : A -> B) (m m' : list (list A)) : transpose_of m m' -> transpose_of (map (map f) m) (map (map f) m').
Proof.
  intros H i j. rewrite !nth_error_map. specialize (H i j).
  destruct (nth_error m' i), (nth_error m j); cbn [option_map]; rewrite ?nth_error_map; try (now rewrite H); try (now rewrite <- H); reflexivity.
Qed.
Lemma shape_map {A B} (f : A -> B) (m : list (list A)) r c : shape m r c -> shape (map (map f) m) r c.
Proof.
  intros [H1 H2]. split; [now rewrite map_length|]. apply Forall_map. eapply Forall_impl; [|exact H2]. cbn. intros. now rewrite map_length.
Qed.

Section Floats.
Context {En : Env}.
Variable lm : Libm.
Local Instance NF : Num := F64 lm.
Notation V := (Value NF).

(** A finite binary64. *)
Definition finite (x : f64) : Prop := fvalid x = true /\ fis_finite x = true.

(** The tree a printed number is read as. *)
Definition num_tree (x : f64) : AST NF :=
  if fsign_neg x then AOp ONeg (@AScalar NF n0) (@AScalar NF (fopp x)) else @AScalar NF x.

Lemma num_text c p : (0 <= c)%Z -> number (N := NF) (render_dec c p) (f_of_dec false c p) /\ render_dec c p <> [].
Proof.
  intros Hc. destruct (render_dec_chars c p Hc) as (H & x & t & E & Hx). split; [split|].
  - eapply Forall_impl; [|exact H]. cbn. tauto.
  - cbn [nparse NF F64]. rewrite E. apply parse_pos; [exact Hx|]. rewrite <- E. now apply render_dec_parse.
  - now rewrite E.
Qed.
(** The text of a non-negative number. *)
Lemma show_pos x : finite x -> fsign_neg x = false -> number (N := NF) (show_f64 x) x /\ show_f64 x <> [].
Proof.
  intros [Hv Hf] Hs. destruct x as [s|s| |s m e]; try discriminate; cbn in Hs; subst s.
  - split; [|discriminate]. split; [|reflexivity]. constructor; [now left|constructor].
  - cbn [show_f64 app]. pose proof (shortest_reads m e Hv) as H. destruct (shortest m e) as [c p]. destruct H as [Hc H]. rewrite <- H. apply num_text. lia.
Qed.
Lemma show_neg x : finite x -> fsign_neg x = true -> show_f64 x = ch "-" :: show_f64 (fopp x) /\ finite (fopp x) /\ fsign_neg (fopp x) = false.
Proof. intros [Hv Hf] Hs. destruct x as [s|s| |s m e]; try discriminate; cbn in Hs; subst s; repeat split; exact Hv. Qed.

Lemma show_expression x : finite x -> expression (N := NF) (show_f64 x) (num_tree x).
Proof.
  intros Hx. unfold num_tree. destruct (fsign_neg x) eqn:Hs.
  - destruct (show_neg x Hx Hs) as (E & Hf & Hs'). rewrite E. constructor. apply (phrase_down 4); [lia|]. apply P_neg.
    apply (phrase_down 10); [lia|]. apply P_atom. destruct (show_pos _ Hf Hs'). now apply A_number.
  - constructor. apply (phrase_down 10); [lia|]. apply P_atom. destruct (show_pos x Hx Hs). now apply A_number.
Qed.
Lemma show_chars x : finite x -> Forall (fun c => is_digit c = true \/ c = ch "." \/ c = ch "-") (show_f64 x).
Proof.
  intros Hx. destruct (fsign_neg x) eqn:Hs.
  - destruct (show_neg x Hx Hs) as (E & Hf & Hs'). rewrite E. constructor; [now right; right|].
    destruct (show_pos _ Hf Hs') as [[H _] _]. eapply Forall_impl; [|exact H]. cbn. tauto.
  - destruct (show_pos x Hx Hs) as [[H _] _]. eapply Forall_impl; [|exact H]. cbn. tauto.
Qed.
Lemma num_tree_outcome x c : finite x -> outcome (num_tree x) c (Ok [Scalar x]).
Proof.
  intros [Hv Hf]. unfold num_tree. destruct (fsign_neg x) eqn:Hs; [|apply (scalar_outcome [])].
  apply (op_outcome_iff [] c ONeg _ _ [@Scalar NF n0] [@Scalar NF (fopp x)]); try apply (scalar_outcome []).
  split; [discriminate|]. change (Ok [@Scalar NF (fmul fm1 (fopp x))] = @Ok EvalError (list V) [Scalar x]).
  assert (Hv' : fvalid (fopp x) = true) by now apply fopp_valid.
  pose proof (c21_negation lm (@Scalar NF (fopp x)) Hv') as H.
  change (@Ok string V (@Scalar NF (fmul fm1 (fopp x))) = Ok (@Scalar NF (fopp (fopp x)))) in H. apply ok_eq in H.
  now rewrite H, fopp_involutive.
Qed.

(** ** Texts without white space *)
Definition text_char (c : char) : Prop := is_digit c = true \/ In c [ch "."; ch "-"; ch ","; ch "["; ch "]"].
Lemma text_char_ascii c : text_char c -> is_ascii c = true /\ is_whitespace c = false.
Proof.
  intros H. assert (Hb : (44 <= c <= 93)%N).
  { destruct H as [H|H]; [apply digit_bounds in H; lia|]. cbn in H. repeat (destruct H as [<-|H]; [cbn; lia|]). destruct H. }
  assert (Ha : is_ascii c = true) by (unfold is_ascii; apply N.ltb_lt; lia). split; [exact Ha|].
  unfold is_whitespace. rewrite Ha. rewrite (proj2 (N.eqb_neq c 32)) by lia. cbn [orb]. apply andb_false_iff. right. apply N.leb_gt. lia.
Qed.
Definition clean (s : str) : Prop := Forall text_char s.
Lemma clean_show x : finite x -> clean (show_f64 x).
Proof.
  intros H. eapply Forall_impl; [|apply (show_chars x H)]. intros c [Hc|[->| ->]]; [now left|right; cbn; tauto|right; cbn; tauto].
Qed.
Lemma clean_join ss : Forall clean ss -> clean (join (lit ",") ss).
Proof.
  intros H. induction H as [|s ss Hs H IH]; [constructor|]. destruct ss as [|s2 ss]; [exact Hs|].
  change (clean (s ++ ch "," :: join (lit ",") (s2 :: ss))). apply Forall_app. split; [exact Hs|]. constructor; [right; cbn; tauto|exact IH].
Qed.
Lemma clean_brackets s : clean s -> clean (ch "[" :: s ++ [ch "]"]).
Proof. intros H. constructor; [right; cbn; tauto|]. apply Forall_app. split; [exact H|]. constructor; [right; cbn; tauto|constructor]. Qed.
Lemma clean_ascii s : clean s -> ascii_text s.
Proof. intros H. eapply Forall_impl; [|exact H]. intros c Hc. now apply text_char_ascii. Qed.
Lemma clean_parse s a : clean s -> expression (N := NF) s a -> parse s = Ok a.
Proof.
  intros Hc He. rewrite (parse_solid s (S (List.length s))).
  - apply expression_parse; [exact He|lia].
  - intros c H. unfold clean in Hc. rewrite Forall_forall in Hc. now apply text_char_ascii, Hc.
  - lia.
Qed.

(** ** Vectors and matrices *)
Definition row_text (l : list f64) : str := ch "[" :: join (lit ",") (map show_f64 l) ++ [ch "]"].
Lemma row_clean l : Forall finite l -> clean (row_text l).
Proof. intros H. apply clean_brackets, clean_join. apply Forall_map. eapply Forall_impl; [|exact H]. intros x. apply clean_show. Qed.
Lemma row_expression l : l <> [] -> Forall finite l -> expression (N := NF) (row_text l) (AVector (map num_tree l)).
Proof.
  intros Hne Hl. constructor. apply (phrase_down 10); [lia|]. apply P_atom. unfold row_text. apply A_vector.
  - now destruct l.
  - apply Forall_map. eapply Forall_impl; [|exact Hl]. intros x Hx. now apply clean_ascii, clean_show.
  - clear Hne. induction Hl; cbn; constructor; auto. now apply show_expression.
  - apply Forall_map. eapply Forall_impl; [|exact Hl]. intros x _. unfold num_tree. now destruct (fsign_neg x).
Qed.
Lemma trees_outcome l c : Forall finite l ->
  Forall2 (fun e ss => outcome_in [] e c (Ok (map (@Scalar NF) ss))) (map num_tree l) (map (fun x => [x]) l).
Proof. intros H. induction H as [|x l Hx H IH]; cbn; constructor; auto. now apply num_tree_outcome. Qed.

(** ** C41 *)
(** The text evaluates to [v] and to nothing else, in every context. *)
Definition reads_as (s : str) (v : V) : Prop :=
  exists a, parse s = Ok a /\ forall c, outcome a c (Ok [v]).

Theorem c41_scalar x : finite x -> reads_as (value_as_string (@Scalar NF x)) (Scalar x).
Proof.
  intros Hx. exists (num_tree x). split.
  - apply clean_parse; [now apply clean_show|now apply show_expression].
  - intros c. now apply num_tree_outcome.
Qed.
Lemma vector_reads l c : Forall finite l -> outcome (AVector (map num_tree l)) c (Ok [@Vector NF l]).
Proof.
  intros Hl. pose proof (vector_outcome (N := NF) [] c (map num_tree l) (map (fun x => [x]) l) (trees_outcome l c Hl)) as H.
  now rewrite choices_singletons in H.
Qed.
Theorem c41_vector l : l <> [] -> Forall finite l -> reads_as (value_as_string (@Vector NF l)) (Vector l).
Proof.
  intros Hne Hl. exists (AVector (map num_tree l)). split.
  - apply (clean_parse (row_text l)); [now apply row_clean|now apply row_expression].
  - intros c. now apply vector_reads.
Qed.
Lemma matrix_reads m r k : (0 < r)%nat -> (0 < k)%nat -> shape m r k -> Forall (Forall finite) m ->
  exists a m', expression (value_as_string (@Matrix NF m)) a /\
    (if row_major then m' = m else shape m' k r /\ transpose_of m m') /\ forall c, outcome a c (Ok [@Matrix NF m']).
Proof.
  intros Hr Hk Hsh Hf.
  assert (Hm' : exists m', if row_major then m' = m else shape m' k r /\ transpose_of m m').
  { destruct row_major; [now exists m|]. apply (transpose_exists f0 m r k Hsh). }
  destruct Hm' as [m' Hm'].
  assert (Hf' : Forall (Forall finite) m').
  { destruct row_major; [now subst|]. destruct Hm' as [_ Ht]. apply Forall_forall. intros row Hrow. apply Forall_forall. intros x Hx.
    apply In_nth_error in Hrow as [i Hi]. apply In_nth_error in Hx as [j Hj]. specialize (Ht i j). rewrite Hi, Hj in Ht.
    destruct (nth_error m j) as [row'|] eqn:E; [|discriminate]. symmetry in Ht. apply nth_error_In in Ht, E.
    rewrite Forall_forall in Hf. specialize (Hf row' E). rewrite Forall_forall in Hf. now apply Hf. }
  exists (AMatrix (map (map num_tree) m')), m'. split; [|split; [exact Hm'|]].
  - change (value_as_string (@Matrix NF m)) with (ch "[" :: join (lit ",") (map row_text m) ++ [ch "]"]).
    constructor. apply (phrase_down 10); [lia|]. apply P_atom. apply (A_matrix _ _ (map (map num_tree) m) _ r k).
    + apply Forall_map. eapply Forall_impl; [|exact Hf]. intros l Hl. now apply clean_ascii, row_clean.
    + destruct Hsh as [_ Hsh]. clear -Hf Hsh Hk. induction m as [|row m IH]; cbn; constructor.
      * inversion Hf; inversion Hsh; subst. apply row_expression; [|assumption]. intros ->. cbn in Hk. lia.
      * inversion Hf; inversion Hsh; subst. now apply IH.
    + exact Hr.
    + exact Hk.
    + now apply shape_map.
    + destruct row_major; [now rewrite Hm'|]. destruct Hm' as [H1 H2]. split; [now apply shape_map|now apply transpose_map].
  - intros c. pose proof (matrix_outcome (N := NF) [] c (map (map num_tree) m') (map (map (fun x => [x])) m')) as H.
    rewrite map_map in H. rewrite (map_ext (fun x : list f64 => choices (map (fun y : f64 => [y]) x)) (fun r => [r])) in H by (intros; apply choices_singletons).
    rewrite choices_singletons in H. apply H. clear -Hf'. induction Hf' as [|row m' Hrow Hf' IH]; cbn; constructor; auto. now apply trees_outcome.
Qed.
(** Any value: finite numbers, at least one component, rectangular. *)
Definition readable (v : V) : Prop :=
  match v with
  | Scalar x => finite x
  | Vector l => l <> [] /\ Forall finite l
  | Matrix m => exists r k, (0 < r)%nat /\ (0 < k)%nat /\ shape m r k /\ Forall (Forall finite) m
  end.
(** [w] is what is read for [v]: [v] itself, or a matrix transposed. *)
Definition reread (v w : V) : Prop :=
  match v, w with
  | Matrix m, Matrix m' =>
      if row_major then m' = m else transpose_of m m' /\ exists r k, shape m r k /\ shape m' k r
  | _, _ => w = v
  end.
Lemma value_text (v : V) : readable v -> clean (value_as_string v) /\
  exists a w, expression (value_as_string v) a /\ reread v w /\ forall c, outcome a c (Ok [w]).
Proof.
  intros Hv. assert (Hc : clean (value_as_string v)).
  { destruct v as [m|l|x]; cbn in Hv.
    - destruct Hv as (r & k & _ & _ & _ & Hf). change (clean (ch "[" :: join (lit ",") (map row_text m) ++ [ch "]"])).
      apply clean_brackets, clean_join. apply Forall_map. eapply Forall_impl; [|exact Hf]. intros l. apply row_clean.
    - apply (row_clean l). tauto.
    - now apply clean_show. }
  split; [exact Hc|]. destruct v as [m|l|x]; cbn in Hv.
  - destruct Hv as (r & k & Hr & Hk & Hsh & Hf). destruct (matrix_reads m r k Hr Hk Hsh Hf) as (a & m' & He & Hm & Ho).
    exists a, (@Matrix NF m'). split; [exact He|]. split; [|exact Ho]. cbn. destruct row_major; [exact Hm|]. destruct Hm as [H1 H2]. split; [exact H2|eauto].
  - exists (AVector (map num_tree l)), (@Vector NF l). split; [now apply row_expression|]. split; [reflexivity|]. intros c. apply vector_reads. tauto.
  - exists (num_tree x), (@Scalar NF x). split; [now apply show_expression|]. split; [reflexivity|]. intros c. now apply num_tree_outcome.
Qed.
Theorem c41_value (v : V) : readable v -> exists w, reread v w /\ reads_as (value_as_string v) w.
Proof.
  intros Hv. destruct (value_text v Hv) as (Hc & a & w & He & Hw & Ho). exists w. split; [exact Hw|]. exists a. split; [|exact Ho]. now apply clean_parse.
Qed.

(** A printed set of values reads back as the values, in order. *)
Lemma no_blanks_clean s : clean s -> no_blanks s = s.
Proof.
  intros H. apply solid_blanks. intros c Hc. unfold clean in H. rewrite Forall_forall in H. now apply text_char_ascii, H.
Qed.
Theorem c41_values (vs : list V) : vs <> [] -> Forall readable vs ->
  exists a ws, parse (values_as_string vs) = Ok a /\ Forall2 reread vs ws /\ forall c, outcome a c (Ok ws).
Proof.
  intros Hne Hvs.
  assert (H : exists aa ws, Forall2 expression (map value_as_string vs) aa /\ Forall2 reread vs ws /\
                forall c, Forall2 (fun a w => outcome_in [] a c (Ok [w])) aa ws).
  { clear Hne. induction Hvs as [|v vs Hv Hvs IH].
    - exists [], []. split; [constructor|]. split; constructor.
    - destruct IH as (aa & ws & I1 & I2 & I3). destruct (value_text v Hv) as (_ & a & w & He & Hw & Ho).
      exists (a :: aa), (w :: ws). split; [now constructor|]. split; [now constructor|]. intros c. constructor; [apply Ho|apply I3]. }
  destruct H as (aa & ws & H1 & H2 & H3). exists (AList aa), ws. split; [|split; [exact H2|]].
  - assert (Hcl : Forall clean (map value_as_string vs)).
    { apply Forall_map. eapply Forall_impl; [|exact Hvs]. intros v Hv. now apply value_text. }
    rewrite (c02_same_without_blanks (values_as_string vs) (ch "{" :: join (lit ",") (map value_as_string vs) ++ [ch "}"])).
    + rewrite (parse_solid _ (S (List.length (ch "{" :: join (lit ",") (map value_as_string vs) ++ [ch "}"])))).
      * apply expression_parse; [|lia]. constructor. apply (phrase_down 10); [lia|]. apply P_atom. apply A_list; [now destruct vs|exact H1].
      * intros c Hc. cbn [In] in Hc. rewrite in_app_iff in Hc. destruct Hc as [<-|[Hc|[<-|[]]]]; [reflexivity| |reflexivity].
        pose proof (clean_join _ Hcl) as Hj. unfold clean in Hj. rewrite Forall_forall in Hj. now apply text_char_ascii, Hj.
      * lia.
    + unfold values_as_string. change (ch "{" :: ?x ++ [ch "}"]) with (lit "{" ++ x ++ lit "}"). rewrite !no_blanks_app. do 2 f_equal.
      clear -Hcl. induction Hcl as [|s ss Hs Hss IH]; [reflexivity|]. destruct ss as [|s2 ss]; [reflexivity|].
      change (join (lit ", ") (s :: s2 :: ss)) with (s ++ lit ", " ++ join (lit ", ") (s2 :: ss)).
      change (join (lit ",") (s :: s2 :: ss)) with (s ++ lit "," ++ join (lit ",") (s2 :: ss)).
      rewrite !no_blanks_app, IH. reflexivity.
  - intros c. pose proof (list_outcome (N := NF) [] c aa (map (fun w => [w]) ws)) as H.
    replace (List.concat (map (fun w => [w]) ws)) with ws in H by (clear; induction ws; cbn; congruence).
    apply H. specialize (H3 c). clear -H3. induction H3; cbn; constructor; auto.
Qed.
(** The empty set does not. *)
Theorem c41_no_values : parse (values_as_string (@nil V)) = Err EmptyExpr.
Proof. reflexivity. Qed.
(** Infinities and NaN read as variables. *)
Theorem c41_infinity_is_a_name x : fis_inf x = true ->
  @parse NF _ (show_f64 x) = Ok (if fsign_neg x then AOp ONeg (AScalar n0) (AVar (lit "inf")) else AVar (lit "inf")).
Proof. destruct x as [|[]| |]; try discriminate; intros _; reflexivity. Qed.
End Floats.

Module Examples.
(** 0.1 and the smallest positive number are finite; their texts. *)
Definition tenth : f64 := S754_finite false 7205759403792794 (-56).
Definition tiny : f64 := S754_finite true 1 (-1074).
Example tenth_finite : finite tenth /\ show_f64 tenth = lit "0.1".
Proof. split; [split|]; vm_compute; reflexivity. Qed.
Example tiny_finite : finite tiny.
Proof. split; vm_compute; reflexivity. Qed.
(** A vector with a negative zero, 0.1 and the smallest number is readable. *)
Example vector_readable : @readable toy (@Vector NT [S754_zero true; tenth; tiny]).
Proof.
  split; [discriminate|]. repeat constructor; apply tenth_finite || apply tiny_finite.
Qed.
(** A 2x2 matrix, printed and read: transposed without the feature. *)
Definition a22 : Value NT := ma [[1; 2]; [3; 4]]%Z.
Example a22_readable : @readable toy a22.
Proof. exists 2, 2. repeat split; try lia; repeat constructor. Qed.
Example a22_text : value_as_string a22 = lit "[[1,2],[3,4]]".
Proof. vm_compute. reflexivity. Qed.
Example a22_transposed : @quick_eval NT ET 20 (value_as_string a22) (mkCtx [] []) = Ok [ma [[1; 3]; [2; 4]]%Z].
Proof. apply res_same_ok. vm_compute. reflexivity. Qed.
Example a22_row_major : @quick_eval NT ETrow 20 (value_as_string a22) (mkCtx [] []) = Ok [a22].
Proof. apply res_same_ok. vm_compute. reflexivity. Qed.
(** Two values, the first negative. *)
Example two_values : @quick_eval NT ET 20 (values_as_string [sc (-2); ve [3; 4]%Z]) (mkCtx [] []) = Ok [sc (-2); ve [3; 4]%Z].
Proof. apply res_same_ok. vm_compute. reflexivity. Qed.
End Examples.
