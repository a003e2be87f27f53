(** * PropString: C54 - the text of an expression reads back. *)
From Coq Require Import List NArith ZArith Bool String Arith Lia.
From Verif Require Import Base BaseFacts F64 Num Types Maths Helpers Parser Eval Print SpecEval EvalProofs ParserBase GrammarSpec ParserGrammar ParserGrammar2 ParserGrammar3
  ParserSpec ParserTop PropParser PropEval PropLatex Parens.
Import ListNotations.
Local Open Scope string_scope.
Local Open Scope list_scope.

Section Text.
Context {N : Num} {En : Env}.

(** ** Specification *)
(** The text printed for a number is a number literal that reads as it. *)
Definition reads_as_printed (x : T) : Prop :=
  number (round_and_format x false) x /\ exists t c, round_and_format x false = t ++ [c] /\ is_digit c = true.
(** Trees whose text keeps the meaning: no plus-minus, no index, no cross
    product, no absolute value, no equation system; matrices only if literals
    list the rows; nothing is multiplied without a sign after a power. *)
Fixpoint printable (a : AST N) : Prop :=
  match a with
  | AScalar x => reads_as_printed x
  | AVar _ => True
  | AVector l | AList l | AFun _ l => every printable l
  | AMatrix m => row_major = true /\ every (every printable) m
  | AOp op l r =>
      ~ In op [OAddSub; OGet; OCross; OAbs] /\
      (op = OHiddenMult -> forall x y, l <> AOp OPow x y) /\ printable l /\ printable r
  | AInt e _ l u => printable e /\ printable l /\ printable u
  | ADer e _ p => printable e /\ printable p
  | AEq _ _ => False
  end.

(** ** Proof *)
(** The tree read back: exponents are printed in parentheses. *)
Fixpoint mark (a : AST N) : AST N :=
  match a with
  | AScalar x => AScalar x
  | AVar n => AVar n
  | AVector l => AVector (map mark l)
  | AMatrix m => AMatrix (map (map mark) m)
  | AList l => AList (map mark l)
  | AFun n l => AFun n (map mark l)
  | AOp op l r => AOp op (mark l) (match op with OPow => AOp OParenths (mark r) (AScalar n0) | _ => mark r end)
  | AInt e x l u => AInt (mark e) x (mark l) (mark u)
  | ADer e x p => ADer (mark e) x (mark p)
  | AEq eqs xs => AEq (map (fun q => (mark (fst q), mark (snd q))) eqs) xs
  end.
Lemma plain_mark a : plain_tree (mark a) = plain_tree a.
Proof.
  assert (L : forall l, Forall (fun a => plain_tree (mark a) = plain_tree a) l -> map plain_tree (map mark l) = map plain_tree l).
  { intros l H. rewrite map_map. induction H; cbn; congruence. }
  induction a using tree_ind; cbn [mark].
  - reflexivity.
  - cbn [plain_tree]. f_equal. now apply L.
  - cbn [plain_tree]. f_equal. rewrite map_map. induction H as [|r m Hr H IH]; cbn [map]; [reflexivity|]. rewrite IH. f_equal. now apply L.
  - cbn [plain_tree]. f_equal. now apply L.
  - reflexivity.
  - cbn [plain_tree]. f_equal. now apply L.
  - destruct (is_parens op a2) eqn:E.
    + apply is_parens_eq in E as (z & -> & ->). exact IHa1.
    + rewrite (plain_op_tree _ _ _ E). destruct op; try (rewrite plain_op_tree by reflexivity; cbn [plain_op]; try (change (plain_tree (AOp OParenths ?x (AScalar n0))) with (plain_tree x)); now rewrite IHa1, IHa2).
      destruct a2; try discriminate E; (rewrite plain_op_tree by reflexivity; cbn [plain_op]; now rewrite IHa1, IHa2).
  - cbn [plain_tree]. congruence.
  - cbn [plain_tree]. congruence.
  - cbn [plain_tree]. f_equal. rewrite map_map. induction H as [|q eqs [H1 H2] H IH]; [reflexivity|]. cbn [map]. rewrite IH. cbn [fst snd]. now rewrite H1, H2.
Qed.

Definition pr (a : AST N) : str := no_blanks (ast_as_string a).
Definition harmless (c : char) : Prop := is_ascii c = true /\ is_whitespace c = false /\ c <> ch "=".
Definition chars_from (s t : str) : Prop := forall c, In c t -> In c s \/ harmless c.
Lemma cf_incl s t : incl t s -> chars_from s t. Proof. intros H c Hc. left. auto. Qed.
Lemma cf_harmless s t : Forall harmless t -> chars_from s t. Proof. intros H c Hc. right. rewrite Forall_forall in H. auto. Qed.
Lemma cf_app s t u : chars_from s t -> chars_from s u -> chars_from s (t ++ u).
Proof. intros H1 H2 c Hc. apply in_app_iff in Hc as [Hc|Hc]; auto. Qed.
Lemma cf_mono s s' t : incl s s' -> chars_from s t -> chars_from s' t.
Proof. intros H H1 c Hc. destruct (H1 c Hc); auto. Qed.
Lemma cf_join s l : Forall (chars_from s) l -> chars_from s (join [44%N] l).
Proof.
  intros H. induction H as [|t l Ht H IH]; [intros c []|]. destruct l as [|u l]; [exact Ht|].
  change (join [44%N] (t :: u :: l)) with (t ++ [44%N] ++ join [44%N] (u :: l)). apply cf_app; [exact Ht|]. apply cf_app; [|exact IH].
  apply cf_harmless. repeat (discriminate || constructor).
Qed.
Lemma solid_sub s t : incl t s -> solid s -> solid t. Proof. intros H H1 c Hc. auto. Qed.
Lemma nb s : solid s -> no_blanks s = s. Proof. intros H. apply (proj2 (solid_blanks s H)). Qed.
Lemma no_blanks_join l : no_blanks (join (lit ", ") l) = join [44%N] (map no_blanks l).
Proof.
  induction l as [|t l IH]; [reflexivity|]. destruct l as [|u l]; [reflexivity|].
  change (join (lit ", ") (t :: u :: l)) with (t ++ lit ", " ++ join (lit ", ") (u :: l)). rewrite !no_blanks_app, IH. reflexivity.
Qed.
Lemma pr_list l : no_blanks (join (lit ", ") (map ast_as_string l)) = join [44%N] (map pr l).
Proof. rewrite no_blanks_join, map_map. reflexivity. Qed.

Notation Q a := (forall k lead s, phrase expression k lead s a -> solid s -> printable a ->
  phrase expression k lead (pr a) (mark a) /\ chars_from s (pr a)).
Notation below a := (forall b, In b (children a) -> Q b).

Lemma expr_step b s : Q b -> expression s b -> solid s -> printable b -> expression (pr b) (mark b) /\ chars_from s (pr b).
Proof. intros H [He] Hs Hp. destruct (H 0 true s He Hs Hp) as [H1 H2]. split; [now constructor|exact H2]. Qed.
Lemma incl_join s ss : In s ss -> incl s (join [44%N] ss).
Proof. intros H. apply (join_pieces [44%N] ss s H). Qed.
Lemma args_step t ss aa : Forall2 expression ss aa -> (forall b, In b aa -> Q b) -> every printable aa -> solid t -> (forall s, In s ss -> incl s t) ->
  Forall2 expression (map pr aa) (map mark aa) /\ Forall (chars_from t) (map pr aa) /\ Forall2 (fun s b => chars_from s (pr b)) ss aa.
Proof.
  intros H Hb Hp Ht Hi. induction H as [|s b ss aa He H IH]; cbn [map]; [repeat constructor|]. destruct Hp as [Hp1 Hp2].
  destruct (expr_step b s) as [E1 E2]; auto; [apply Hb; now left|eapply solid_sub; [apply Hi; now left|exact Ht]|].
  destruct IH as (I1 & I2 & I3); auto; [intros; apply Hb; auto; now right|intros; apply Hi; now right|].
  repeat split; constructor; auto. eapply cf_mono; [|exact E2]. apply Hi. now left.
Qed.
Lemma ascii_from ss (aa : list (AST N)) : Forall2 (fun s b => chars_from s (pr b)) ss aa -> Forall ascii_text ss -> Forall ascii_text (map pr aa).
Proof.
  intros H. induction H as [|s b ss aa He H IH]; intros Ha; cbn [map]; [constructor|]. inversion Ha; subst. constructor; [|auto].
  apply Forall_forall. intros c Hc. destruct (He c Hc) as [G|G]; [|apply G]. unfold ascii_text in *. rewrite Forall_forall in H2. auto.
Qed.

(** A vector is written as a vector literal. *)
Lemma vector_atom k lead s v : phrase expression k lead s (AVector v) -> @atom N _ expression s (AVector v).
Proof. intros H. remember (AVector v) as a eqn:E. induction H; try discriminate; auto. Qed.

Lemma vector_step t s v : atom expression s (AVector v) -> (forall b, In b v -> Q b) -> every printable v -> solid t -> incl s t ->
  atom expression (ch "[" :: join [44%N] (map pr v) ++ [ch "]"]) (AVector (map mark v)) /\
  chars_from s (ch "[" :: join [44%N] (map pr v) ++ [ch "]"]).
Proof.
  intros H Hb Hp Hs Hi. inversion H as [| | | | | | |ss aa Hne Has HR Hv| | | |]; subst.
  assert (Hin : forall u, In u ss -> incl u (ch "[" :: join (lit ",") ss ++ [ch "]"])).
  { intros u Hu c Hc. right. apply in_app_iff. left. eapply incl_join; eauto. }
  destruct (args_step (ch "[" :: join (lit ",") ss ++ [ch "]"]) ss v) as (G1 & G2 & G3); auto.
  { eapply solid_sub; [exact Hi|exact Hs]. }
  split.
  - apply (A_vector expression); [|now apply (ascii_from ss)|exact G1|].
    + intros E. apply map_eq_nil in E. subst. inversion HR; subst. congruence.
    + apply Forall_forall. intros b Hb'. apply in_map_iff in Hb' as (b0 & <- & Hb0). rewrite Forall_forall in Hv. specialize (Hv b0 Hb0). now destruct b0.
  - apply (cf_app _ [ch "["]); [apply cf_harmless; repeat (discriminate || constructor)|]. apply cf_app; [now apply cf_join|apply cf_harmless; repeat (discriminate || constructor)].
Qed.
Lemma matrix_rows t ss vs : Forall2 expression ss (map AVector vs) -> (forall b, In b (List.concat vs) -> Q b) -> every (every printable) vs -> solid t ->
  (forall s, In s ss -> incl s t) -> Forall ascii_text ss ->
  let rows := map (fun v => ch "[" :: join [44%N] (map pr v) ++ [ch "]"]) vs in
  Forall2 expression rows (map AVector (map (map mark) vs)) /\ Forall (chars_from t) rows /\ Forall ascii_text rows.
Proof.
  intros H Hb Hp Ht Hi Ha. cbv zeta. revert ss H Hi Ha Hb Hp. induction vs as [|v vs IH]; intros ss H Hi Ha Hb Hp; cbn [map]; [repeat constructor|].
  inversion H as [|s ? ss' ? He H']; subst. destruct Hp as [Hp1 Hp2]. inversion Ha; subst.
  destruct He as [He]. apply vector_atom in He.
  destruct (vector_step t s v) as [E1 E2]; auto.
  { intros; apply Hb; auto. cbn [List.concat]. apply in_app_iff; auto. }
  { apply Hi. now left. }
  destruct (IH ss') as (I1 & I2 & I3); auto; [intros; apply Hi; now right|intros; apply Hb; auto; cbn [List.concat]; apply in_app_iff; auto|].
  repeat split; constructor; auto.
  - constructor. apply (phrase_down 10); [lia|]. now apply P_atom.
  - eapply cf_mono; [|exact E2]. apply Hi. now left.
  - apply Forall_forall. intros c Hc. destruct (E2 c Hc) as [G|G]; [|apply G]. unfold ascii_text in *. rewrite Forall_forall in H2. auto.
Qed.

(** The texts, without blanks. *)
Lemma nb_digits t : Forall (fun c => is_digit c = true \/ c = ch ".") t -> solid t /\ Forall harmless t.
Proof.
  intros H. assert (G : forall c, is_digit c = true \/ c = ch "." -> harmless c).
  { intros c [Hc| ->]; [|split; [reflexivity|split; [reflexivity|discriminate]]]. split; [|split; [now apply digit_white|]].
    - unfold is_digit, is_ascii in *. apply andb_true_iff in Hc as [H1 H2]. apply N.leb_le in H1, H2. apply N.ltb_lt. lia.
    - intros ->. discriminate Hc. }
  split; [intros c Hc; rewrite Forall_forall in H; now apply G, H|]. eapply Forall_impl; [|exact H]. auto.
Qed.
Lemma pr_number x : reads_as_printed x -> pr (AScalar x) = round_and_format x false.
Proof. intros [[H _] _]. unfold pr. cbn [ast_as_string]. apply nb. now apply nb_digits. Qed.
Lemma pr_parens a z : pr (AOp OParenths a z) = ch "(" :: pr a ++ [ch ")"].
Proof. unfold pr. cbn [ast_as_string op_string]. now rewrite !no_blanks_app. Qed.
Lemma pr_call op f a z : In (op, f) functions -> op <> OAbs -> pr (AOp op a z) = lit f ++ ch "(" :: pr a ++ [ch ")"].
Proof.
  intros H Hn. unfold pr. cbn in H.
  repeat (destruct H as [H|H]; [injection H as <- <-; try congruence; cbn [ast_as_string op_string]; now rewrite !no_blanks_app|]). destruct H.
Qed.
Lemma pr_root a b : pr (AOp ORoot a b) = lit "root(" ++ join (lit ",") [pr a; pr b] ++ [ch ")"].
Proof. unfold pr. cbn [ast_as_string op_string]. rewrite !no_blanks_app. cbn [join]. rewrite <- !app_assoc. reflexivity. Qed.
Lemma pr_fun f l : solid f -> pr (AFun f l) = f ++ ch "(" :: join [44%N] (map pr l) ++ [ch ")"].
Proof. intros H. unfold pr. cbn [ast_as_string]. rewrite !no_blanks_app, pr_list. now rewrite (nb f H). Qed.
Lemma pr_alist l : pr (AList l) = ch "{" :: join [44%N] (map pr l) ++ [ch "}"].
Proof. unfold pr. cbn [ast_as_string]. now rewrite !no_blanks_app, pr_list. Qed.
Lemma pr_vector l : pr (AVector l) = ch "[" :: join [44%N] (map pr l) ++ [ch "]"].
Proof. unfold pr. cbn [ast_as_string]. now rewrite !no_blanks_app, pr_list. Qed.
Lemma pr_matrix m : pr (AMatrix m) = ch "[" :: join [44%N] (map (fun v => ch "[" :: join [44%N] (map pr v) ++ [ch "]"]) m) ++ [ch "]"].
Proof.
  unfold pr. cbn [ast_as_string]. rewrite !no_blanks_app, no_blanks_join, map_map.
  replace (map (fun x => no_blanks (lit "[" ++ join (lit ", ") (map ast_as_string x) ++ lit "]")) m)
    with (map (fun v => ch "[" :: join [44%N] (map pr v) ++ [ch "]"]) m); [reflexivity|].
  apply map_ext. intros v. now rewrite !no_blanks_app, pr_list.
Qed.
Lemma pr_der e x p : solid x -> pr (ADer e x p) = lit "D(" ++ join (lit ",") [pr e; x; pr p] ++ [ch ")"].
Proof. intros H. unfold pr. cbn [ast_as_string]. rewrite !no_blanks_app, (nb x H). cbn [join]. rewrite <- !app_assoc. reflexivity. Qed.
Lemma pr_int e x l u : solid x -> pr (AInt e x l u) = lit "I(" ++ join (lit ",") [pr e; x; pr l; pr u] ++ [ch ")"].
Proof. intros H. unfold pr. cbn [ast_as_string]. rewrite !no_blanks_app, (nb x H). cbn [join]. rewrite <- !app_assoc. reflexivity. Qed.

Lemma cf_wrap s x t y : harmless x -> harmless y -> chars_from s t -> chars_from s (x :: t ++ [y]).
Proof. intros Hx Hy Ht. apply (cf_app s [x]); [apply cf_harmless; auto|]. apply cf_app; [exact Ht|apply cf_harmless; auto]. Qed.
Ltac cfh := apply cf_harmless; repeat (discriminate || constructor).
Ltac hl := split; [reflexivity|split; [reflexivity|discriminate]].
Ltac cfw := apply cf_wrap; [hl|hl|].
Lemma cf_lit s f : In f ["sin"; "cos"; "tan"; "abs"; "sqrt"; "root("; "ln"; "arcsin"; "arccos"; "arctan"; "det"; "inv"; "I("; "D("] -> chars_from s (lit f).
Proof. intros H. cbn in H. repeat (destruct H as [<-|H]; [apply cf_harmless; repeat (discriminate || constructor)|]). destruct H. Qed.

Lemma atom_step s a : atom expression s a -> below a -> solid s -> printable a ->
  atom expression (pr a) (mark a) /\ chars_from s (pr a).
Proof.
  intros H Hb Hs Hp. inversion H; subst; cbn [mark children] in *.
  - (* number *) cbn [printable] in Hp. rewrite (pr_number x Hp). destruct Hp as [Hn (t & c & E & Hc)]. split.
    + apply A_number; [|exact Hn]. rewrite E. now destruct t.
    + apply cf_harmless. apply nb_digits, Hn.
  - (* name *) unfold pr. cbn [ast_as_string]. rewrite (nb s Hs). split; [exact H|apply cf_incl, incl_refl].
  - (* parentheses *) destruct Hp as (_ & _ & Hp & _). rewrite pr_parens.
    assert (Hi : incl s0 (ch "(" :: s0 ++ [ch ")"])) by (intros c Hc; right; apply in_app_iff; auto).
    destruct (expr_step a0 s0) as [E1 E2]; auto; [apply Hb; now left|eapply solid_sub; eauto|].
    split; [now apply A_parenths|]. cfw. eapply cf_mono; eauto.
  - (* function *) destruct Hp as (Hop & _ & Hp & _).
    assert (Hn : op <> OAbs) by (intros ->; apply Hop; cbn; tauto).
    rewrite (pr_call op f) by auto.
    assert (Hi : incl s0 (lit f ++ ch "(" :: s0 ++ [ch ")"])) by (intros c Hc; apply in_app_iff; right; right; apply in_app_iff; auto).
    destruct (expr_step a0 s0) as [E1 E2]; auto; [apply Hb; now left|eapply solid_sub; eauto|].
    assert (Hm : match op with OPow => AOp OParenths (AScalar n0) (AScalar n0) | _ => @AScalar N n0 end = AScalar n0).
    { cbn in H0. repeat (destruct H0 as [H0|H0]; [injection H0 as <- _; reflexivity|]). destruct H0. }
    rewrite Hm. split; [now apply A_function|]. apply cf_app; [|cfw; eapply cf_mono; eauto]. apply cf_lit.
    clear - H0. cbn in H0 |- *. repeat (destruct H0 as [H0|H0]; [injection H0 as _ <-; tauto|]). destruct H0.
  - (* root *) destruct Hp as (_ & _ & Hp1 & Hp2). rewrite pr_root.
    assert (Hi : forall u, In u [s1; s2] -> incl u (lit "root(" ++ join (lit ",") [s1; s2] ++ [ch ")"])).
    { intros u Hu c Hc. apply in_app_iff. right. apply in_app_iff. left. eapply incl_join; eauto. }
    destruct (expr_step a0 s1) as [E1 E2]; auto; [apply Hb; now left|eapply solid_sub; [apply Hi; now left|exact Hs]|].
    destruct (expr_step b s2) as [E3 E4]; auto; [apply Hb; right; now left|eapply solid_sub; [apply Hi; right; now left|exact Hs]|].
    split; [now apply A_root|]. apply cf_app; [apply cf_lit; cbn; tauto|]. apply cf_app; [|cfh]. apply cf_join.
    constructor; [eapply cf_mono; [apply Hi|exact E2]; cbn; tauto|]. constructor; [eapply cf_mono; [apply Hi|exact E4]; cbn; tauto|constructor].
  - (* call *) cbn [printable] in Hp.
    assert (Hf : solid f) by (eapply solid_sub; [|exact Hs]; intros c Hc; apply in_app_iff; auto).
    rewrite (pr_fun f aa Hf).
    destruct (args_step (f ++ ch "(" :: join (lit ",") ss ++ [ch ")"]) ss aa) as (G1 & G2 & G3); auto.
    { intros u Hu c Hc. apply in_app_iff. right. right. apply in_app_iff. left. eapply incl_join; eauto. }
    split.
    + apply (A_call expression f (map pr aa)); auto. intros E. apply map_eq_nil in E. subst. inversion H4; subst. congruence.
    + apply cf_app; [apply cf_incl; intros c Hc; apply in_app_iff; auto|]. cfw. now apply cf_join.
  - (* list *) cbn [printable] in Hp. rewrite pr_alist.
    destruct (args_step (ch "{" :: join (lit ",") ss ++ [ch "}"]) ss aa) as (G1 & G2 & G3); auto.
    { intros u Hu c Hc. right. apply in_app_iff. left. eapply incl_join; eauto. }
    split.
    + apply (A_list expression (map pr aa)); auto. intros E. apply map_eq_nil in E. subst. inversion H1; subst. congruence.
    + cfw. now apply cf_join.
  - (* vector *) rewrite pr_vector. cbn [printable] in Hp. eapply vector_step; eauto. apply incl_refl.
  - (* matrix *) destruct Hp as [Hrow Hp]. rewrite Hrow in H5. subst m. rewrite pr_matrix.
    destruct (matrix_rows (ch "[" :: join (lit ",") ss ++ [ch "]"]) ss vs) as (G1 & G2 & G3); auto.
    { intros u Hu c' Hc. right. apply in_app_iff. left. eapply incl_join; eauto. }
    split.
    + apply (A_matrix expression _ (map (map mark) vs) (map (map mark) vs) r c); auto; [|now rewrite Hrow].
      destruct H4 as [S1 S2]. split; [now rewrite map_length|]. apply Forall_map. eapply Forall_impl; [|exact S2]. intros l Hl. cbv beta in *. now rewrite map_length.
    + cfw. now apply cf_join.
  - (* derivative *) destruct Hp as [Hp1 Hp2].
    assert (Hi : forall u, In u [f; x; p] -> incl u (lit "D(" ++ join (lit ",") [f; x; p] ++ [ch ")"])).
    { intros u Hu c Hc. apply in_app_iff. right. apply in_app_iff. left. eapply incl_join; eauto. }
    rewrite pr_der by (eapply solid_sub; [apply Hi; right; now left|exact Hs]).
    destruct (expr_step a0 f) as [E1 E2]; auto; [apply Hb; now left|eapply solid_sub; [apply Hi; now left|exact Hs]|].
    destruct (expr_step b p) as [E3 E4]; auto; [apply Hb; right; now left|eapply solid_sub; [apply Hi; right; right; now left|exact Hs]|].
    split; [now apply A_derivative|]. apply cf_app; [apply cf_lit; cbn; tauto|]. apply cf_app; [|cfh]. apply cf_join.
    constructor; [eapply cf_mono; [apply Hi|exact E2]; cbn; tauto|]. constructor; [apply cf_incl, Hi; cbn; tauto|].
    constructor; [eapply cf_mono; [apply Hi|exact E4]; cbn; tauto|constructor].
  - (* integral *) destruct Hp as (Hp1 & Hp2 & Hp3).
    assert (Hi : forall v, In v [f; x; l; u] -> incl v (lit "I(" ++ join (lit ",") [f; x; l; u] ++ [ch ")"])).
    { intros v Hv c' Hc. apply in_app_iff. right. apply in_app_iff. left. eapply incl_join; eauto. }
    rewrite pr_int by (eapply solid_sub; [apply Hi; right; now left|exact Hs]).
    destruct (expr_step a0 f) as [E1 E2]; auto; [apply Hb; now left|eapply solid_sub; [apply Hi; now left|exact Hs]|].
    destruct (expr_step b l) as [E3 E4]; auto; [apply Hb; right; now left|eapply solid_sub; [apply Hi; right; right; now left|exact Hs]|].
    destruct (expr_step c u) as [E5 E6]; auto; [apply Hb; right; right; now left|eapply solid_sub; [apply Hi; right; right; right; now left|exact Hs]|].
    split; [now apply A_integral|]. apply cf_app; [apply cf_lit; cbn; tauto|]. apply cf_app; [|cfh]. apply cf_join.
    constructor; [eapply cf_mono; [apply Hi|exact E2]; cbn; tauto|]. constructor; [apply cf_incl, Hi; cbn; tauto|].
    constructor; [eapply cf_mono; [apply Hi|exact E4]; cbn; tauto|].
    constructor; [eapply cf_mono; [apply Hi|exact E6]; cbn; tauto|constructor].
  - destruct Hp.
Qed.

(** *** First and last characters *)
Lemma last_app_ne (a b : str) d : b <> [] -> last (a ++ b) d = last b d.
Proof. intros H. induction a as [|x a IH]; [reflexivity|]. cbn [app]. rewrite <- IH. destruct (a ++ b) eqn:E; [|reflexivity]. destruct a; [contradiction|discriminate]. Qed.
Lemma last_snoc (a : str) c d : last (a ++ [c]) d = c.
Proof. now rewrite last_app_ne. Qed.
Definition underscore_end (t s : str) : Prop := t <> [] /\ (last t (ch "0") = ch "_" -> last s (ch "0") = ch "_").
Lemma ue_bracket t c s : c <> ch "_" -> underscore_end (t ++ [c]) s.
Proof. intros H. split; [now destruct t|]. rewrite last_snoc. congruence. Qed.
Lemma ue_tail t s u v : underscore_end t s -> s <> [] -> underscore_end (u ++ t) (v ++ s).
Proof. intros [H1 H2] Hs. split; [destruct u; [exact H1|discriminate]|]. rewrite !last_app_ne by assumption. exact H2. Qed.
Lemma op_char_not_us k c op : In (k, c, op) operators -> c <> ch "_".
Proof. intros H. cbn in H. repeat (destruct H as [H|H]; [injection H as <- <- <-; discriminate|]). destruct H. Qed.

Lemma atom_ue s a : atom expression s a -> solid s -> printable a -> underscore_end (pr a) s.
Proof.
  intros H Hs Hp. inversion H; subst.
  - cbn [printable] in Hp. rewrite (pr_number x Hp). destruct Hp as [Hn (t & c & E & Hc)]. rewrite E. apply ue_bracket. intros ->. discriminate.
  - unfold pr. cbn [ast_as_string]. rewrite (nb s Hs). split; [|auto]. destruct H0 as (c & t & -> & _). discriminate.
  - rewrite pr_parens. apply (ue_bracket (ch "(" :: pr a0)). discriminate.
  - destruct Hp as (Hop & _). rewrite (pr_call op f); [|auto|intros ->; apply Hop; cbn; tauto].
    rewrite app_comm_cons, app_assoc. apply ue_bracket. discriminate.
  - rewrite pr_root. rewrite app_assoc. apply ue_bracket. discriminate.
  - rewrite pr_fun by (eapply solid_sub; [|exact Hs]; intros c Hc; apply in_app_iff; auto). rewrite app_comm_cons, app_assoc. apply ue_bracket. discriminate.
  - rewrite pr_alist. rewrite app_comm_cons. apply ue_bracket. discriminate.
  - rewrite pr_vector. rewrite app_comm_cons. apply ue_bracket. discriminate.
  - rewrite pr_matrix. rewrite app_comm_cons. apply ue_bracket. discriminate.
  - rewrite pr_der. { rewrite app_assoc. apply ue_bracket. discriminate. }
    eapply solid_sub; [|exact Hs]. intros c Hc. apply in_app_iff. right. apply in_app_iff. left. apply (incl_join x [f; x; p]); cbn; tauto.
  - rewrite pr_int. { rewrite app_assoc. apply ue_bracket. discriminate. }
    eapply solid_sub; [|exact Hs]. intros c' Hc. apply in_app_iff. right. apply in_app_iff. left. apply (incl_join x [f; x; l; u]); cbn; tauto.
  - destruct Hp.
Qed.
(** Binary operators of the fragment. *)
Lemma pr_binary k c op a b : In (k, c, op) operators -> ~ In op [OAddSub; OGet; OCross; OAbs] -> op <> OPow -> pr (AOp op a b) = pr a ++ c :: pr b.
Proof.
  intros H Hn Hp. unfold pr. cbn in H.
  repeat (destruct H as [H|H]; [injection H as <- <- <-; try (exfalso; apply Hn; cbn; tauto); try congruence; cbn [ast_as_string op_string]; now rewrite !no_blanks_app|]). destruct H.
Qed.
Lemma pr_pow a b : pr (AOp OPow a b) = pr a ++ ch "^" :: ch "(" :: pr b ++ [ch ")"].
Proof. unfold pr. cbn [ast_as_string op_string]. now rewrite !no_blanks_app. Qed.
Lemma pr_neg a b : pr (AOp ONeg a b) = ch "-" :: pr b.
Proof. unfold pr. cbn [ast_as_string op_string]. now rewrite !no_blanks_app. Qed.
Lemma pr_hidden a b : pr (AOp OHiddenMult a b) = pr a ++ pr b.
Proof. unfold pr. cbn [ast_as_string op_string]. now rewrite !no_blanks_app. Qed.
Lemma op_hidden k c : ~ In (k, c, OHiddenMult) operators.
Proof. cbn. intros H. repeat (destruct H as [H|H]; [discriminate|]). exact H. Qed.
Lemma op_dec (o : SimpleOp) : o = OPow \/ o <> OPow. Proof. destruct o; (now left) || (right; discriminate). Qed.
Lemma pow_level k c : In (k, c, OPow) operators -> k = 8 /\ c = ch "^".
Proof. cbn. intros H. repeat (destruct H as [H|H]; [try discriminate; injection H as <- <-; auto|]). destruct H. Qed.

Lemma phrase_ne k lead s a : phrase expression k lead s a -> @atom N _ expression s a \/ s <> [].
Proof. induction 1; auto; try (right; now destruct l); try (right; discriminate). right. destruct IHphrase1 as [H2|H2]; destruct H as (l' & c & d & r' & -> & _); now destruct l'. Qed.
Lemma atom_ne s (a : AST N) : atom expression s a -> s <> [].
Proof.
  intros H. destruct H as [s x H|s H| | | |f ss aa Hf| | | | | |]; try discriminate; auto.
  - destruct H as (c & t & -> & _). discriminate.
  - destruct (lit f); discriminate.
  - destruct Hf as (c & t & -> & _). discriminate.
Qed.
Lemma phrase_nonempty k lead s a : @phrase N _ expression k lead s a -> s <> [].
Proof. intros H. destruct (phrase_ne _ _ _ _ H) as [G|G]; [eapply atom_ne; eauto|exact G]. Qed.

Lemma phrase_ue k lead s a : phrase expression k lead s a -> solid s -> printable a -> underscore_end (pr a) s.
Proof.
  intros H. induction H as [lead s a H|k lead s a H IH|k s a H IH|k lead c op l r a b Hop Hl H1 IH1 H2 IH2|k lead c op l r a b Hop Hl H1 IH1 H2 IH2|r b H IH|k c op r b Hop Hs H IH|lead l r a b Hj H1 IH1 H2 IH2];
    intros Hs' Hp; auto.
  - now apply atom_ue.
  - destruct Hp as (Hn & _ & Hp1 & Hp2). destruct (op_dec op) as [->|Hop'].
    + apply pow_level in Hop as [-> ->]. discriminate.
    + rewrite (pr_binary k c op) by assumption. apply (ue_tail (c :: pr b) (c :: r) (pr a) l); [|discriminate]. apply (ue_tail (pr b) r [c] [c]); [|eapply phrase_nonempty; eauto].
      apply IH2; [|exact Hp2]. eapply solid_sub; [|exact Hs']. intros x Hx. apply in_app_iff. right. now right.
  - destruct Hp as (Hn & _ & Hp1 & Hp2). destruct (op_dec op) as [->|Hop'].
    + rewrite pr_pow. rewrite !app_comm_cons, app_assoc. apply ue_bracket. discriminate.
    + rewrite (pr_binary k c op) by assumption. apply (ue_tail (c :: pr b) (c :: r) (pr a) l); [|discriminate]. apply (ue_tail (pr b) r [c] [c]); [|eapply phrase_nonempty; eauto].
      apply IH2; [|exact Hp2]. eapply solid_sub; [|exact Hs']. intros x Hx. apply in_app_iff. right. now right.
  - destruct Hp as (_ & _ & _ & Hp). rewrite pr_neg. apply (ue_tail (pr b) r [ch "-"] [ch "-"]); [|eapply phrase_nonempty; eauto]. apply IH; auto.
    eapply solid_sub; [|exact Hs']. intros x Hx. now right.
  - destruct Hp as (Hn & _ & Hp1 & Hp2). assert (Hr : solid r) by (eapply solid_sub; [|exact Hs']; intros x Hx; now right). destruct (op_dec op) as [->|Hop'].
    + rewrite pr_pow. rewrite !app_comm_cons, app_assoc. apply ue_bracket. discriminate.
    + rewrite (pr_binary k c op) by assumption. apply (ue_tail (c :: pr b) (c :: r) (pr (AScalar n0)) []); [|discriminate]. apply (ue_tail (pr b) r [c] [c]); [|eapply phrase_nonempty; eauto]. auto.
  - destruct Hp as (_ & _ & Hp1 & Hp2). rewrite pr_hidden. apply ue_tail; [|eapply phrase_nonempty; eauto]. apply IH2; auto.
    eapply solid_sub; [|exact Hs']. intros x Hx. apply in_app_iff. now right.
Qed.

Definition starter (d : char) : Prop := is_alphabetic d = true \/ In d [ch "\"; ch "("; ch "["].
Lemma op_not_starter k c op : In (k, c, op) operators -> ~ starter c.
Proof.
  intros H Hs. cbn in H. repeat (destruct H as [H|H]; [injection H as <- <- <-; destruct Hs as [Hs|Hs]; [discriminate|cbn in Hs; repeat (destruct Hs as [Hs|Hs]; [discriminate|]); exact Hs]|]). destruct H.
Qed.
Lemma digit_not_starter c : is_digit c = true \/ c = ch "." -> ~ starter c.
Proof.
  intros H Hs. assert (Hb : (46 <= c <= 57)%N).
  { destruct H as [H| ->]; [|change (ch ".") with 46%N; lia]. unfold is_digit in H. apply andb_true_iff in H as [H1 H2]. apply N.leb_le in H1, H2. lia. }
  destruct Hs as [Hs|Hs].
  - unfold is_alphabetic, is_ascii in Hs. destruct (N.ltb_spec c 128); [|lia]. apply orb_true_iff in Hs as [Hs|Hs]; apply andb_true_iff in Hs as [H1 H2]; apply N.leb_le in H1, H2; lia.
  - cbn in Hs. repeat (destruct Hs as [<-|Hs]; [lia|]). exact Hs.
Qed.
Definition same_start (s t : str) : Prop := forall d s', s = d :: s' -> starter d -> exists t', t = d :: t'.
Lemma ss_prefix p s t : p <> [] -> same_start (p ++ s) (p ++ t).
Proof. intros H d s' E Hd. destruct p as [|x p]; [congruence|]. injection E as -> _. eexists. reflexivity. Qed.
Lemma atom_start s a : atom expression s a -> solid s -> printable a -> same_start s (pr a).
Proof.
  intros H Hs Hp. inversion H; subst.
  - intros d s' -> Hd. exfalso. destruct H1 as [H1 _]. inversion H1; subst. eapply digit_not_starter; eauto.
  - unfold pr. cbn [ast_as_string]. rewrite (nb s Hs). intros d s' -> _. eauto.
  - rewrite pr_parens. apply (ss_prefix [ch "("]). discriminate.
  - destruct Hp as (Hop & _). rewrite (pr_call op f); [|auto|intros ->; apply Hop; cbn; tauto]. apply ss_prefix.
    clear - H0. cbn in H0. repeat (destruct H0 as [H0|H0]; [injection H0 as _ <-; discriminate|]). destruct H0.
  - rewrite pr_root. apply ss_prefix. discriminate.
  - rewrite pr_fun by (eapply solid_sub; [|exact Hs]; intros c Hc; apply in_app_iff; auto). apply ss_prefix. destruct H0 as (c & t & -> & _). discriminate.
  - intros d s' E Hd. injection E as <- _. exfalso. destruct Hd as [Hd|Hd]; [discriminate|]. cbn in Hd. repeat (destruct Hd as [Hd|Hd]; [discriminate|]). exact Hd.
  - rewrite pr_vector. apply (ss_prefix [ch "["]). discriminate.
  - rewrite pr_matrix. apply (ss_prefix [ch "["]). discriminate.
  - rewrite pr_der. { apply ss_prefix. discriminate. }
    eapply solid_sub; [|exact Hs]. intros c Hc. apply in_app_iff. right. apply in_app_iff. left. apply (incl_join x [f; x; p]); cbn; tauto.
  - rewrite pr_int. { apply ss_prefix. discriminate. }
    eapply solid_sub; [|exact Hs]. intros c' Hc. apply in_app_iff. right. apply in_app_iff. left. apply (incl_join x [f; x; l; u]); cbn; tauto.
  - destruct Hp.
Qed.
Lemma ss_app l r t u : same_start l t -> l <> [] -> same_start (l ++ r) (t ++ u).
Proof. intros H Hl d s' E Hd. destruct l as [|x l]; [congruence|]. injection E as -> _. destruct (H d l eq_refl Hd) as [t' ->]. eexists. reflexivity. Qed.
Lemma phrase_start k lead s a : phrase expression k lead s a -> solid s -> printable a -> same_start s (pr a).
Proof.
  intros H. induction H as [lead s a H|k lead s a H IH|k s a H IH|k lead c op l r a b Hop Hl H1 IH1 H2 IH2|k lead c op l r a b Hop Hl H1 IH1 H2 IH2|r b H IH|k c op r b Hop Hs H IH|lead l r a b Hj H1 IH1 H2 IH2];
    intros Hs' Hp; auto.
  - now apply atom_start.
  - destruct Hp as (Hn & _ & Hp1 & Hp2). destruct (op_dec op) as [->|Hop'].
    + apply pow_level in Hop as [-> ->]. discriminate.
    + rewrite (pr_binary k c op) by assumption. apply ss_app; [|eapply phrase_nonempty; eauto]. apply IH1; auto. eapply solid_sub; [|exact Hs']. intros x Hx. apply in_app_iff. now left.
  - destruct Hp as (Hn & _ & Hp1 & Hp2). assert (Hl' : solid l) by (eapply solid_sub; [|exact Hs']; intros x Hx; apply in_app_iff; now left).
    destruct (op_dec op) as [->|Hop']; [rewrite pr_pow|rewrite (pr_binary k c op) by assumption]; (apply ss_app; [auto|eapply phrase_nonempty; eauto]).
  - rewrite pr_neg. apply (ss_prefix [ch "-"]). discriminate.
  - intros d s' E Hd. injection E as <- _. exfalso. eapply op_not_starter; eauto.
  - destruct Hp as (_ & _ & Hp1 & Hp2). rewrite pr_hidden. apply ss_app; [|eapply phrase_nonempty; eauto]. apply IH1; auto.
    eapply solid_sub; [|exact Hs']. intros x Hx. apply in_app_iff. now left.
Qed.

(** The left factor of a product without sign is an atom. *)
Lemma tight_atom k lead s a : phrase expression k lead s a -> 8 <= k -> printable a -> (forall x y, a <> AOp OPow x y) -> atom expression s a.
Proof.
  intros H. induction H as [lead s a H|k lead s a H IH|k s a H IH|k lead c op l r a b Hop Hl H1 IH1 H2 IH2|k lead c op l r a b Hop Hl H1 IH1 H2 IH2|r b H IH|k c op r b Hop Hs H IH|lead l r a b Hj H1 IH1 H2 IH2];
    intros Hk Hp Hn; auto; try lia; exfalso; destruct Hp as (Hp & _); cbn in Hop; cbn [In] in Hp;
    repeat (destruct Hop as [Hop|Hop]; [injection Hop as <- <- <-; try lia; (eapply Hn; reflexivity) || (apply Hp; tauto)|]); destruct Hop.
Qed.
Lemma jux_step l r a b k lead : juxtaposed l r -> atom expression l a -> phrase expression k lead r b -> solid l -> solid r -> printable a -> printable b ->
  juxtaposed (pr a) (pr b).
Proof.
  intros (l' & c & d & r' & -> & -> & Hu & Hcd) Ha Hb Hl Hr Hpa Hpb.
  assert (Hd : starter d) by (destruct Hcd as [[_ [H|H]]|[_ ->]]; [now left|now right|right; cbn; tauto]).
  destruct (phrase_start _ _ _ _ Hb Hr Hpb d r' eq_refl Hd) as [r2 ->].
  assert (Hend : c <> ch ")" -> is_digit c = true -> exists t e, pr a = t ++ [e] /\ is_digit e = true /\ last t (ch "0") <> ch "_").
  { intros _ Hc. remember (l' ++ [c]) as s eqn:E. destruct Ha;
      try (exfalso; match type of E with ?x = _ => assert (G : last x (ch "0") = c) by (rewrite E; apply last_snoc) end;
           rewrite ?app_comm_cons, ?app_assoc, last_snoc in G; rewrite <- G in Hc; discriminate).
    - cbn [printable] in Hpa. rewrite (pr_number _ Hpa). destruct Hpa as [[Hn _] (t & e & Ee & He)]. exists t, e. split; [exact Ee|]. split; [exact He|].
      rewrite Ee in Hn. apply Forall_app in Hn as [Hn _]. destruct t as [|y t _] using rev_ind; [discriminate|]. rewrite last_snoc.
      apply Forall_app in Hn as [_ Hn]. inversion Hn as [|? ? [G| ->]]; subst; [intros ->; discriminate|discriminate].
    - unfold pr. cbn [ast_as_string]. rewrite (nb s Hl). exists l', c. auto. }
  destruct Hcd as [[Hc Hd']|[-> ->]].
  - destruct Hend as (t & e & E & He & Ht); [intros ->; discriminate|exact Hc|]. exists t, e, d, r2. repeat split; auto.
  - assert (Hend' : exists t, pr a = t ++ [ch ")"] /\ last t (ch "0") <> ch "_"). 2:{ destruct Hend' as (t & E & Ht). exists t, (ch ")"), (ch "("), r2. repeat split; auto. }
    assert (Hlast : forall t u, underscore_end t u -> last (u ++ []) (ch "0") = last l' (ch "0") -> last t (ch "0") <> ch "_").
    { intros t u [_ H] E G. rewrite app_nil_r in E. apply Hu. rewrite <- E. auto. }
    clear Hend. pose proof (atom_ne _ _ Ha) as Hne. remember (l' ++ [ch ")"]) as s eqn:E.
    assert (Hin : forall p t, s = p ++ t ++ [ch ")"] -> t <> [] -> last l' (ch "0") = last t (ch "0")).
    { intros p t Ep Ht. rewrite E, app_assoc in Ep. apply app_inj_tail in Ep as [-> _]. now apply last_app_ne. }
    assert (Hsub : forall p t, s = p ++ t ++ [ch ")"] -> solid t).
    { intros p t Ep. eapply solid_sub; [|exact Hl]. rewrite Ep. intros x Hx. apply in_app_iff. right. apply in_app_iff. now left. }
    assert (Hexp : forall p u t b0, s = p ++ u ++ t ++ [ch ")"] -> expression t b0 -> printable b0 -> last (pr b0) (ch "0") <> ch "_").
    { intros p u t b0 Ep [Hx] Hpx G. pose proof (phrase_nonempty _ _ _ _ Hx) as Htn. rewrite app_assoc in Ep. destruct (phrase_ue _ _ _ _ Hx (Hsub _ _ Ep) Hpx) as [_ Hz].
      apply Hu. rewrite (Hin _ _ Ep Htn). auto. }
    assert (Hpne : forall t b0, expression t b0 -> solid t -> printable b0 -> pr b0 <> []).
    { intros t b0 [Hx] Hst Hpx. apply (phrase_ue _ _ _ _ Hx Hst Hpx). }
    assert (Hargs : forall p ss aa, s = p ++ join [44%N] ss ++ [ch ")"] -> ss <> [] -> Forall2 expression ss aa -> every printable aa ->
      last (join [44%N] (map pr aa)) (ch "0") <> ch "_" /\ join [44%N] (map pr aa) <> []).
    { intros p ss aa Ep Hssn HF Hpp. revert p Ep Hssn Hpp. induction HF as [|t b0 ss aa Hx HF IH]; intros p Ep Hssn Hpp; [congruence|]. destruct Hpp as [Hp1 Hp2].
      destruct ss as [|t2 ss]; inversion HF; subst.
      - cbn [map join] in *. split; [eapply (Hexp p [] t); eauto|]. eapply Hpne; eauto.
      - change (join [44%N] (t :: t2 :: ss)) with (t ++ [44%N] ++ join [44%N] (t2 :: ss)) in Ep. rewrite <- !app_assoc in Ep.
        destruct (IH (p ++ t ++ [44%N])) as [I1 I2]; auto; [rewrite Ep, <- !app_assoc; reflexivity|discriminate|].
        change (join [44%N] (map pr (b0 :: y :: l'0))) with (pr b0 ++ [44%N] ++ join [44%N] (map pr (y :: l'0))). split; [|destruct (pr b0); discriminate].
        rewrite last_app_ne by discriminate. rewrite last_app_ne by exact I2. exact I1. }
    destruct Ha;
      try (exfalso; match type of E with ?x = _ => assert (G : last x (ch "0") = ch ")") by (rewrite E; apply last_snoc) end;
           rewrite ?app_comm_cons, ?app_assoc, last_snoc in G; discriminate).
    + exfalso. destruct H0 as [H0 _]. rewrite E in H0. apply Forall_app in H0 as [_ H0]. inversion H0 as [|? ? [G|G]]; discriminate.
    + unfold pr. cbn [ast_as_string]. rewrite (nb s Hl). exists l'. auto.
    + destruct Hpa as (_ & _ & Hpa & _). rewrite pr_parens. exists (ch "(" :: pr a). split; [reflexivity|]. change (ch "(" :: pr a) with ([ch "("] ++ pr a).
      assert (Ep : ch "(" :: s ++ [ch ")"] = [ch "("] ++ s ++ [ch ")"]) by reflexivity.
      rewrite last_app_ne; [eapply (Hexp [ch "("] [] s); eauto|]. eapply Hpne; eauto.
    + destruct Hpa as (Hop & _ & Hpa & _). rewrite (pr_call op f); [|auto|intros ->; apply Hop; cbn; tauto].
      exists (lit f ++ ch "(" :: pr a). split; [now rewrite <- app_assoc|].
      assert (Ep : lit f ++ ch "(" :: s ++ [ch ")"] = (lit f ++ [ch "("]) ++ s ++ [ch ")"]) by (rewrite <- app_assoc; reflexivity).
      rewrite last_app_ne by discriminate. change (ch "(" :: pr a) with ([ch "("] ++ pr a).
      rewrite last_app_ne; [eapply (Hexp (lit f ++ [ch "("]) [] s); eauto|]. eapply Hpne; eauto.
    + destruct Hpa as (_ & _ & Hp1 & Hp2). rewrite pr_root. exists (lit "root(" ++ join [44%N] (map pr [a; b0])). split; [now rewrite <- app_assoc|].
      destruct (Hargs (lit "root(") [s1; s2] [a; b0]) as [G1 G2]; auto; [discriminate|cbn; auto|]. rewrite last_app_ne; auto.
    + cbn [printable] in Hpa. rewrite pr_fun by (eapply solid_sub; [|exact Hl]; intros x Hx; apply in_app_iff; auto).
      exists (f ++ ch "(" :: join [44%N] (map pr aa)). split; [now rewrite <- app_assoc|].
      destruct (Hargs (f ++ [ch "("]) ss aa) as [G1 G2]; auto; [rewrite <- app_assoc; reflexivity|].
      rewrite last_app_ne by discriminate. change (ch "(" :: ?z) with ([ch "("] ++ z). rewrite last_app_ne; auto.
    + destruct Hpa as [Hp1 Hp2]. assert (Hx : solid x).
      { eapply solid_sub; [|exact Hl]. intros y Hy. apply in_app_iff. right. apply in_app_iff. left. apply (incl_join x [f; x; p]); cbn; tauto. }
      rewrite pr_der by exact Hx. exists (lit "D(" ++ join [44%N] [pr a; x; pr b0]). split; [now rewrite <- app_assoc|].
      assert (Ep : lit "D(" ++ join (lit ",") [f; x; p] ++ [ch ")"] = (lit "D(" ++ f ++ [44%N] ++ x ++ [44%N]) ++ [] ++ p ++ [ch ")"]).
      { cbn [join]. rewrite <- !app_assoc. reflexivity. }
      assert (G : pr b0 <> []) by (eapply Hpne; eauto).
      cbn [join]. rewrite !app_assoc. rewrite last_app_ne by exact G. eapply Hexp; eauto.
    + destruct Hpa as (Hp1 & Hp2 & Hp3). assert (Hx : solid x).
      { eapply solid_sub; [|exact Hl]. intros y Hy. apply in_app_iff. right. apply in_app_iff. left. apply (incl_join x [f; x; l; u]); cbn; tauto. }
      rewrite pr_int by exact Hx. exists (lit "I(" ++ join [44%N] [pr a; x; pr b0; pr c]). split; [now rewrite <- app_assoc|].
      assert (Ep : lit "I(" ++ join (lit ",") [f; x; l; u] ++ [ch ")"] = (lit "I(" ++ f ++ [44%N] ++ x ++ [44%N] ++ l ++ [44%N]) ++ [] ++ u ++ [ch ")"]).
      { cbn [join]. rewrite <- !app_assoc. reflexivity. }
      assert (G : pr c <> []) by (eapply Hpne; eauto).
      cbn [join]. rewrite !app_assoc. rewrite last_app_ne by exact G. eapply Hexp; eauto.
    + destruct Hpa.
Qed.

(** *** Phrases *)
Lemma pow_right b k lead r : Q b -> phrase expression k lead r b -> solid r -> printable b ->
  phrase expression 8 false (ch "(" :: pr b ++ [ch ")"]) (AOp OParenths (mark b) (AScalar n0)) /\ chars_from r (ch "(" :: pr b ++ [ch ")"]).
Proof.
  intros HQ H Hs Hp. destruct (HQ k lead r H Hs Hp) as [H1 H2]. split; [|now cfw].
  apply (phrase_down 10); [lia|]. apply P_atom, A_parenths. constructor. apply (phrase_down k); [lia|]. destruct lead; [exact H1|now apply P_lead].
Qed.
Lemma op_harmless k c op : In (k, c, op) operators -> harmless c.
Proof. intros H. cbn in H. repeat (destruct H as [H|H]; [injection H as <- <- <-; hl|]). destruct H. Qed.
Lemma cf_mid s l c r : harmless c -> chars_from s l -> chars_from s r -> chars_from s (l ++ c :: r).
Proof. intros Hc Hl Hr. apply cf_app; [exact Hl|]. apply (cf_app s [c]); [|exact Hr]. apply cf_harmless. auto. Qed.
Lemma mark_op op a b : op <> OPow -> mark (AOp op a b) = AOp op (mark a) (mark b).
Proof. destruct op; try reflexivity. congruence. Qed.
Lemma phrase_step k lead s a : phrase expression k lead s a -> below a -> solid s -> printable a ->
  phrase expression k lead (pr a) (mark a) /\ chars_from s (pr a).
Proof.
  intros H. induction H as [lead s a H|k lead s a H IH|k s a H IH|k lead c op l r a b Hop Hl H1 _ H2 _|k lead c op l r a b Hop Hl H1 _ H2 _|r b H _|k c op r b Hop Hs H _|lead l r a b Hj H1 _ H2 _];
    intros Hb Hs' Hp.
  - destruct (atom_step s a H Hb Hs' Hp) as [G1 G2]. split; [now apply P_atom|exact G2].
  - destruct (IH Hb Hs' Hp) as [G1 G2]. split; [now apply P_tighter|exact G2].
  - destruct (IH Hb Hs' Hp) as [G1 G2]. split; [now apply P_lead|exact G2].
  - destruct Hp as (Hn & _ & Hp1 & Hp2).
    assert (Hil : incl l (l ++ c :: r)) by (intros x Hx; apply in_app_iff; auto).
    assert (Hir : incl r (l ++ c :: r)) by (intros x Hx; apply in_app_iff; right; now right).
    assert (Hn' : op <> OPow) by (intros ->; apply pow_level in Hop as [-> ->]; discriminate).
    destruct (Hb a (or_introl eq_refl) _ _ _ H1) as [A1 A2]; [eapply solid_sub; eauto|exact Hp1|].
    destruct (Hb b (or_intror (or_introl eq_refl)) _ _ _ H2) as [B1 B2]; [eapply solid_sub; eauto|exact Hp2|].
    rewrite (pr_binary k c op) by assumption. rewrite mark_op by assumption. split; [now apply P_left|].
    apply cf_mid; [eapply op_harmless; eauto|exact (cf_mono _ _ _ Hil A2)|exact (cf_mono _ _ _ Hir B2)].
  - destruct Hp as (Hn & _ & Hp1 & Hp2).
    assert (Hil : incl l (l ++ c :: r)) by (intros x Hx; apply in_app_iff; auto).
    assert (Hir : incl r (l ++ c :: r)) by (intros x Hx; apply in_app_iff; right; now right).
    destruct (Hb a (or_introl eq_refl) _ _ _ H1) as [A1 A2]; [eapply solid_sub; eauto|exact Hp1|].
    destruct (op_dec op) as [->|Hn'].
    + destruct (pow_level _ _ Hop) as [-> ->].
      destruct (pow_right b _ _ r (Hb b (or_intror (or_introl eq_refl))) H2) as [B1 B2]; [eapply solid_sub; eauto|exact Hp2|].
      rewrite pr_pow. cbn [mark]. split; [now apply P_right|]. apply cf_mid; [eapply op_harmless; eauto|exact (cf_mono _ _ _ Hil A2)|exact (cf_mono _ _ _ Hir B2)].
    + destruct (Hb b (or_intror (or_introl eq_refl)) _ _ _ H2) as [B1 B2]; [eapply solid_sub; eauto|exact Hp2|].
      rewrite (pr_binary k c op) by assumption. rewrite mark_op by assumption. split; [now apply P_right|].
      apply cf_mid; [eapply op_harmless; eauto|exact (cf_mono _ _ _ Hil A2)|exact (cf_mono _ _ _ Hir B2)].
  - destruct Hp as (_ & _ & _ & Hp2).
    assert (Hir : incl r (ch "-" :: r)) by (intros x Hx; now right).
    destruct (Hb b (or_intror (or_introl eq_refl)) _ _ _ H) as [B1 B2]; [eapply solid_sub; eauto|exact Hp2|].
    rewrite pr_neg. cbn [mark]. split; [now apply P_neg|]. apply (cf_mid _ []); [hl|intros x []|eapply cf_mono; eauto].
  - destruct Hp as (Hn & _ & Hp1 & Hp2). cbn [printable] in Hp1.
    assert (Hir : incl r (c :: r)) by (intros x Hx; now right).
    assert (Hz : forall j ld, j <= 10 -> phrase expression j ld (pr (AScalar n0)) (AScalar n0)).
    { intros j ld Hj. apply (phrase_down 10); [exact Hj|]. apply P_atom. rewrite (pr_number _ Hp1). destruct Hp1 as [Hnum (t & e & E & _)]. apply A_number; [|exact Hnum]. rewrite E. now destruct t. }
    assert (Hzc : chars_from (c :: r) (pr (AScalar n0))). { rewrite (pr_number _ Hp1). apply cf_harmless. apply nb_digits, Hp1. }
    assert (Hk : k <= 9) by (clear - Hop; cbn in Hop; repeat (destruct Hop as [Hop|Hop]; [injection Hop as <- _ _; lia|]); destruct Hop).
    destruct (op_dec op) as [->|Hn'].
    + destruct (pow_level _ _ Hop) as [-> ->].
      destruct (pow_right b _ _ r (Hb b (or_intror (or_introl eq_refl))) H) as [B1 B2]; [eapply solid_sub; eauto|exact Hp2|].
      rewrite pr_pow. cbn [mark]. split; [apply P_right; auto; apply Hz; lia|]. apply cf_mid; [eapply op_harmless; eauto|exact Hzc|exact (cf_mono _ _ _ Hir B2)].
    + destruct (Hb b (or_intror (or_introl eq_refl)) _ _ _ H) as [B1 B2]; [eapply solid_sub; eauto|exact Hp2|].
      rewrite (pr_binary k c op) by assumption. rewrite mark_op by assumption. cbn [mark]. split.
      * destruct (left_assoc k) eqn:El.
        -- assert (Ek : Nat.eqb k 0 = false) by (destruct k; [discriminate|reflexivity]). rewrite Ek in B1. apply P_left; auto; apply Hz; lia.
        -- apply P_right; auto; apply Hz; lia.
      * apply cf_mid; [eapply op_harmless; eauto|exact Hzc|exact (cf_mono _ _ _ Hir B2)].
  - destruct Hp as (_ & Hpow & Hp1 & Hp2).
    assert (Hil : incl l (l ++ r)) by (intros x Hx; apply in_app_iff; auto).
    assert (Hir : incl r (l ++ r)) by (intros x Hx; apply in_app_iff; auto).
    destruct (Hb a (or_introl eq_refl) _ _ _ H1) as [A1 A2]; [eapply solid_sub; eauto|exact Hp1|].
    destruct (Hb b (or_intror (or_introl eq_refl)) _ _ _ H2) as [B1 B2]; [eapply solid_sub; eauto|exact Hp2|].
    rewrite pr_hidden. cbn [mark]. split.
    + apply P_juxtaposed; auto. eapply jux_step; eauto; [|eapply solid_sub; eauto|eapply solid_sub; eauto].
      eapply tight_atom; eauto.
    + apply cf_app; [exact (cf_mono _ _ _ Hil A2)|exact (cf_mono _ _ _ Hir B2)].
Qed.


Lemma children_ind (P : AST N -> Prop) : (forall a, (forall b, In b (children a) -> P b) -> P a) -> forall a, P a.
Proof.
  intros H a. induction a using tree_ind; apply H; cbn [children]; intros b Hb.
  - destruct Hb.
  - rewrite Forall_forall in H0. auto.
  - apply in_concat in Hb as (r & Hr & Hb). rewrite Forall_forall in H0. specialize (H0 r Hr). rewrite Forall_forall in H0. auto.
  - rewrite Forall_forall in H0. auto.
  - destruct Hb.
  - rewrite Forall_forall in H0. auto.
  - destruct Hb as [<-|[<-|[]]]; auto.
  - destruct Hb as [<-|[<-|[<-|[]]]]; auto.
  - destruct Hb as [<-|[<-|[]]]; auto.
  - apply in_flat_map in Hb as (q & Hq & Hb). rewrite Forall_forall in H0. destruct (H0 q Hq). destruct Hb as [<-|[<-|[]]]; auto.
Qed.
Lemma all_step a : Q a.
Proof. apply (children_ind (fun a => Q a)). intros b Hb k lead s Hph. now apply phrase_step. Qed.

(** ** C54 *)
(** The text of a tree that was read is read as a tree that differs only by
    parentheses around exponents. *)
Theorem c54_reads_back s a : expression s a -> solid s -> printable a ->
  exists b, parse (ast_as_string a) = Ok b /\ plain_tree b = plain_tree a.
Proof.
  intros [He] Hs Hp. destruct (all_step a 0 true s He Hs Hp) as [H1 H2]. exists (mark a). split; [|apply plain_mark].
  assert (Hsol : solid (pr a)).
  { intros c Hc. destruct (H2 c Hc) as [G|G]; [now apply Hs|apply G]. }
  rewrite (c02_same_without_blanks (ast_as_string a) (pr a)) by (unfold pr at 1; symmetry; apply nb, Hsol).
  apply c03_grammar; [apply (proj1 (solid_blanks _ Hsol))|]. rewrite (nb _ Hsol). now constructor.
Qed.

Lemma quick_of_parse s a (c : Ctx N) r : parse s = Ok a ->
  quick_outcome s c r <-> exists r0, outcome a c r0 /\ r = map_err QEvalError r0.
Proof.
  intros E. unfold quick_outcome, quick_eval. rewrite E. cbn [map_err bind]. split.
  - intros [Hr [f0 H]]. specialize (H f0 (le_n _)). exists (eval f0 a c). split; [|now symmetry]. apply (outcome_intro f0); [reflexivity|].
    intros G. rewrite G in H. now subst.
  - intros (r0 & [Hr [f0 H]] & ->). split; [destruct r0; cbn; congruence|]. exists f0. intros f Hf. now rewrite H.
Qed.
(** So it means the same in every context. *)
Theorem c54_same_meaning s a (c : Ctx N) r : only_blanks s -> expression (no_blanks s) a -> printable a ->
  quick_outcome (ast_as_string a) c r <-> quick_outcome s c r.
Proof.
  intros Hb He Hp. assert (Hs : solid (no_blanks s)) by (intros x Hx; apply no_blanks_in in Hx as [H1 H2]; specialize (Hb x H1); destruct (is_whitespace x); [exfalso; apply H2; auto|reflexivity]).
  destruct (c54_reads_back _ a He Hs Hp) as (b & Eb & E). pose proof (c03_grammar s a Hb He) as Ea.
  rewrite (quick_of_parse _ b c r Eb), (quick_of_parse _ a c r Ea).
  split; intros (r0 & Ho & ->); exists r0; (split; [|reflexivity]); apply plain_outcome in Ho; apply plain_outcome; congruence.
Qed.

(** ** The text of an equation system *)
(** A text from which a printable tree is read. *)
Definition written (a : AST N) : Prop := exists s, expression s a /\ solid s /\ ~ In (ch "=") s /\ printable a.
(** The same equation, up to parentheses and up to exchanging its sides. *)
Definition same_equation (q q' : AST N * AST N) : Prop :=
  (plain_tree (fst q') = plain_tree (fst q) /\ plain_tree (snd q') = plain_tree (snd q)) \/
  (plain_tree (fst q') = plain_tree (snd q) /\ plain_tree (snd q') = plain_tree (fst q)).

Lemma written_pr a : written a -> expression (pr a) (mark a) /\ solid (pr a) /\ ~ In (ch "=") (pr a).
Proof.
  intros (s & [He] & Hs & Heq & Hp). destruct (all_step a 0 true s He Hs Hp) as [H1 H2]. split; [now constructor|]. split.
  - intros c Hc. destruct (H2 c Hc) as [G|G]; [now apply Hs|apply G].
  - intros Hc. destruct (H2 _ Hc) as [G|G]; [contradiction|]. now apply G.
Qed.
Definition side_texts (q : AST N * AST N) : str := pr (fst q) ++ ch "=" :: pr (snd q).
Lemma pr_equations eqs sv : pr (AEq eqs sv) = lit "eq(" ++ join [44%N] (map side_texts eqs) ++ [ch ")"].
Proof.
  unfold pr at 1. cbn [ast_as_string]. rewrite !no_blanks_app. f_equal. f_equal.
  assert (G : forall l, no_blanks (join (lit ",") l) = join [44%N] (map no_blanks l)).
  { clear. intros l. induction l as [|a [|b l] IH]; [reflexivity|reflexivity|].
    change (join (lit ",") (a :: b :: l)) with (a ++ lit "," ++ join (lit ",") (b :: l)).
    change (join [44%N] (map no_blanks (a :: b :: l))) with (no_blanks a ++ [44%N] ++ join [44%N] (map no_blanks (b :: l))).
    rewrite !no_blanks_app, IH. reflexivity. }
  rewrite G, map_map. f_equal. apply map_ext. intros [l r]. unfold side_texts, pr. cbn [fst snd].
  rewrite !no_blanks_app. reflexivity.
Qed.
Lemma entries_of eqs : Forall (fun q => written (fst q) /\ written (snd q)) eqs ->
  exists es, Forall2 (@entry N expression) (map side_texts eqs) (map inr es) /\ Forall2 same_equation eqs es.
Proof.
  induction 1 as [|[l r] eqs [Hl Hr] _ (es & I1 & I2)]; [exists []; split; constructor|]. cbn [fst snd] in *.
  destruct (written_pr l Hl) as (L1 & L2 & L3). destruct (written_pr r Hr) as (R1 & R2 & R3).
  exists ((if Nat.leb (byte_len (pr r)) (byte_len (pr l)) then (mark l, mark r) else (mark r, mark l)) :: es). split.
  - cbn [map]. constructor; [|exact I1]. unfold side_texts. cbn [fst snd]. now apply EN_equation.
  - constructor; [|exact I2]. unfold same_equation. destruct (Nat.leb _ _); cbn [fst snd]; rewrite !plain_mark; [now left|now right].
Qed.
Lemma solid_app s t : solid s -> solid t -> solid (s ++ t).
Proof. intros H1 H2 c Hc. apply in_app_iff in Hc as [Hc|Hc]; auto. Qed.
Lemma solid_join l : Forall solid l -> solid (join [44%N] l).
Proof.
  induction 1 as [|t l Ht H IH]; [intros c []|]. destruct l as [|u l]; [exact Ht|].
  change (join [44%N] (t :: u :: l)) with (t ++ [44%N] ++ join [44%N] (u :: l)). apply solid_app; [exact Ht|]. apply solid_app; [|exact IH].
  intros c [<-|[]]. reflexivity.
Qed.
Lemma join_snoc l t : l <> [] -> join [44%N] (l ++ [t]) = join [44%N] l ++ 44%N :: t.
Proof.
  induction l as [|a l IH]; intros H; [contradiction|]. destruct l as [|b l]; [reflexivity|].
  cbn [app] in *. change (join [44%N] (a :: b :: l ++ [t])) with (a ++ [44%N] ++ join [44%N] (b :: l ++ [t])). rewrite IH by discriminate.
  change (join [44%N] (a :: b :: l)) with (a ++ [44%N] ++ join [44%N] (b :: l)). now rewrite <- !app_assoc.
Qed.
Lemma join_snocs l sv : l <> [] -> join [44%N] (l ++ sv) = join [44%N] l ++ List.concat (map (fun v => ch "," :: v) sv).
Proof.
  revert l. induction sv as [|v sv IH]; intros l H; [now rewrite !app_nil_r|].
  change (l ++ v :: sv) with (l ++ [v] ++ sv). rewrite app_assoc, IH by (destruct l; discriminate). rewrite join_snoc by exact H.
  cbn [map List.concat]. now rewrite <- !app_assoc.
Qed.
Lemma flat_inr {X Y} (es : list Y) : flat_map (fun x : X + Y => match x with inr q => [q] | inl _ => [] end) (map inr es) = es /\
  flat_map (fun x : X + Y => match x with inl v => [v] | inr _ => [] end) (map inr es) = [].
Proof. induction es as [|e es [I1 I2]]; [split; reflexivity|]. cbn. now rewrite I1, I2. Qed.
Lemma flat_inl {X Y} (sv : list X) : flat_map (fun x : X + Y => match x with inr q => [q] | inl _ => [] end) (map inl sv) = [] /\
  flat_map (fun x : X + Y => match x with inl v => [v] | inr _ => [] end) (map inl sv) = sv.
Proof. induction sv as [|e es [I1 I2]]; [split; reflexivity|]. cbn. now rewrite I1, I2. Qed.

(** The text of an equation system lists its equations but not its unknowns; with
    the unknowns added it reads as the system. *)
Theorem c54_equations eqs sv body : eqs <> [] -> Forall (fun q => written (fst q) /\ written (snd q)) eqs ->
  Forall (fun v => arg_text v /\ ~ In (ch "=") v /\ solid v) sv ->
  ast_as_string (AEq eqs sv) = body ++ [ch ")"] ->
  exists es, Forall2 same_equation eqs es /\
    parse (body ++ List.concat (map (fun v => ch "," :: v) sv) ++ [ch ")"]) = Ok (AEq es sv).
Proof.
  intros Hne He Hv Hb. destruct (entries_of eqs He) as (es & E1 & E2). exists es. split; [exact E2|].
  assert (Hbody : no_blanks body = lit "eq(" ++ join [44%N] (map side_texts eqs)).
  { apply (f_equal no_blanks) in Hb. fold (pr (AEq eqs sv)) in Hb. rewrite pr_equations, no_blanks_app in Hb.
    change (no_blanks [ch ")"]) with [ch ")"] in Hb. rewrite app_assoc in Hb. now apply app_inj_tail in Hb as [Hb _]. }
  assert (Hsides : Forall solid (map side_texts eqs)).
  { apply Forall_map. eapply Forall_impl; [|exact He]. intros [l r] [Hl Hr]. unfold side_texts. cbn [fst snd] in *.
    apply solid_app; [apply (written_pr l Hl)|]. apply (solid_app [ch "="]); [intros c [<-|[]]; reflexivity|apply (written_pr r Hr)]. }
  assert (Hsvs : Forall solid sv) by (eapply Forall_impl; [|exact Hv]; cbv beta; tauto).
  set (tail := List.concat (map (fun v => ch "," :: v) sv)).
  assert (Htail : solid tail).
  { unfold tail. clear -Hsvs. induction Hsvs as [|v sv H _ IH]; [intros c []|]. cbn [map List.concat].
    apply solid_app; [|exact IH]. apply (solid_app [ch ","]); [intros c [<-|[]]; reflexivity|exact H]. }
  set (full := lit "eq(" ++ join (lit ",") (map side_texts eqs ++ sv) ++ [ch ")"]).
  assert (Hne' : map side_texts eqs <> []) by (destruct eqs; [contradiction|discriminate]).
  assert (Hfull : no_blanks (body ++ tail ++ [ch ")"]) = full).
  { rewrite !no_blanks_app, Hbody, (nb tail Htail). unfold full. change (lit ",") with [44%N]. rewrite join_snocs by exact Hne'. fold tail.
    change (no_blanks [ch ")"]) with [ch ")"]. now rewrite <- !app_assoc. }
  assert (Hsolid : solid full).
  { unfold full. apply solid_app; [intros c Hc; cbn in Hc; repeat (destruct Hc as [<-|Hc]; [reflexivity|]); destruct Hc|].
    apply solid_app; [|intros c [<-|[]]; reflexivity]. apply solid_join. apply Forall_app. now split. }
  rewrite (c02_same_without_blanks _ full) by (rewrite Hfull; symmetry; apply nb, Hsolid).
  apply c03_grammar; [apply (proj1 (solid_blanks _ Hsolid))|]. rewrite (nb _ Hsolid). constructor. apply (phrase_down 10); [lia|]. apply P_atom.
  assert (Hx : Forall2 (@entry N expression) (map side_texts eqs ++ sv) (map inr es ++ map inl sv)).
  { apply Forall2_app; [exact E1|]. clear -Hv. induction Hv as [|v sv (H1 & H2 & _) _ IH]; constructor; [now apply EN_var|exact IH]. }
  pose proof (A_equations expression (map side_texts eqs ++ sv) (map inr es ++ map inl sv)) as G.
  rewrite !flat_map_app in G. destruct (@flat_inr str _ es) as [F1 F2]. destruct (@flat_inl str (AST N * AST N) sv) as [F3 F4].
  rewrite F1, F2, F3, F4, app_nil_r in G. apply G; [|exact Hx]. intros E. apply app_eq_nil in E as [E _]. contradiction.
Qed.
(** As printed, it reads as a system without unknowns. *)
Theorem c54_equations_as_printed eqs sv : eqs <> [] -> Forall (fun q => written (fst q) /\ written (snd q)) eqs ->
  exists es, Forall2 same_equation eqs es /\ parse (ast_as_string (AEq eqs sv)) = Ok (AEq es []).
Proof.
  intros Hne He. assert (Hb : exists body, ast_as_string (AEq eqs []) = body ++ [ch ")"]).
  { exists (lit "eq(" ++ join (lit ",") (map (fun e => ast_as_string (fst e) ++ lit "=" ++ ast_as_string (snd e)) eqs)).
    cbn [ast_as_string]. now rewrite <- app_assoc. }
  destruct Hb as [body Hb]. destruct (c54_equations eqs [] body Hne He (Forall_nil _) Hb) as (es & H1 & H2).
  exists es. split; [exact H1|]. change (ast_as_string (AEq eqs sv)) with (ast_as_string (AEq eqs [])). rewrite Hb. exact H2.
Qed.
End Text.

