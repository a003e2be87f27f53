(** * PropLatexReads: C57 - the LaTeX of an expression is read as that expression. *)
From Coq Require Import List NArith ZArith Bool String Arith Lia.
From Flocq Require Import Core IEEE754.BinarySingleNaN.
From Verif Require Import Base BaseFacts F64 Num Types Maths Helpers Parser Eval Print SpecEval EvalProofs ParserBase LatexSpec GrammarSpec LatexGrammar ParserGrammar ParserGrammar2
  ParserSpec ParserTop PropParser PropLatex Parens PropString PropStringFloat FloatFacts PropPrint Toy.
Import ListNotations.
Local Open Scope string_scope.
Local Open Scope list_scope.

Section Latex.
Context {N : Num} {En : Env}.

(** ** Specification *)
(** The number is shown as a literal that reads as it. *)
Definition shown_exactly (x : T) : Prop :=
  number (round_and_format x true) x /\ exists t c, round_and_format x true = t ++ [c] /\ is_digit c = true.
Definition starts_numeral (s : str) : Prop := match s with c :: _ => is_digit c = true \/ c = ch "." | [] => False end.
(** Expressions whose LaTeX can be read: numbers are shown exactly; inverses,
    powers and indices only of things that are read as one item; the second factor of a
    product without sign does not start with a number (it could be [inv(3)]);
    what follows plus-minus does not start with a letter. *)
Fixpoint legible (a : AST N) : Prop :=
  match a with
  | AScalar x => shown_exactly x
  | AVar _ => True
  | AVector l | AList l | AFun _ l => every legible l
  | AMatrix m => every (every legible) m
  | AInt e _ l u => legible e /\ legible l /\ legible u
  | ADer e _ p => legible e /\ legible p
  | AEq eqs _ => every (fun q => legible (fst q) /\ legible (snd q)) eqs
  | AOp op l r =>
      match op with
      | OInv => legible l /\ 9 <= tier l
      | OPow => legible l /\ legible r /\ 9 <= tier l
      | OGet => legible l /\ legible r /\ tier l = 10 /\ bare l
      | OHiddenMult => legible l /\ legible r /\ 8 <= tier l /\ ~ starts_numeral (ast_latex r)
      | OAddSub => legible l /\ legible r /\ ends_command (ast_latex r)
      | ONeg => legible r
      | OAdd | OSub | OMult | ODiv | OCross | ORoot => legible l /\ legible r
      | _ => legible l
      end
  end.

(** ** Proof *)
Definition cap (k : nat) (a : AST N) : nat :=
  match a with AOp OInv _ _ => Nat.min k 8 | AInt _ _ _ _ => Nat.min k 7 | _ => k end.
Definition opens (s : str) : Prop :=
  match s with c :: _ => is_digit c = true \/ c = ch "." \/ is_alphabetic c = true \/ c = ch "\" \/ c = ch "|" | [] => False end.
Definition closes (s : str) : Prop :=
  exists t c, s = t ++ [c] /\ (is_digit c = true \/ c = ch "}" \/ c = ch ")").

Lemma cap_le k a : cap k a <= k.
Proof. destruct a; cbn [cap]; try lia. destruct op; lia. Qed.
Lemma cap_7 k a : k <= 7 -> cap k a = k.
Proof. intros H. destruct a; cbn [cap]; try lia. destruct op; lia. Qed.
Lemma cap_tier k a : k <= tier a -> cap k a = k.
Proof. destruct a; cbn [cap tier]; try lia. destruct op; cbn; lia. Qed.
Lemma lx_down k j lead s (a : AST N) : j <= k -> lx k lead s a -> lx j lead s a.
Proof. intros H. induction H as [|k H IH]; [auto|]. intros Hp. apply IH. now apply X_tighter. Qed.
Lemma lx_lead k lead s (a : AST N) : lx k lead s a -> lx k true s a.
Proof. destruct lead; [auto|apply X_lead]. Qed.
Lemma lx_free k lead s (a : AST N) : lx k false s a -> lx k lead s a.
Proof. destruct lead; [apply X_lead|auto]. Qed.
Lemma lx_raise k lead s (a : AST N) : lx k lead s a -> 5 <= tier a -> lx (tier a) false s a.
Proof.
  induction 1; cbn [tier]; intros Ht; auto; try lia; try (now constructor).
  - replace (match op with OAdd => _ | _ => _ end) with 10; [now constructor|].
    clear - H. cbn in H. repeat (destruct H as [H|H]; [injection H as <- _; reflexivity|]). destruct H.
  - pose proof (reads_level _ _ _ _ H). apply X_index; auto. apply (lx_down (tier a)); [lia|]. apply IHlx1. lia.
  - pose proof (reads_level _ _ _ _ H). apply X_power; auto. apply (lx_down (tier a)); [lia|]. apply IHlx1. lia.
  - pose proof (reads_level _ _ _ _ H). apply X_inverse; auto. apply (lx_down (tier a)); [lia|]. apply IHlx. lia.
  - pose proof (reads_level _ _ _ _ H). apply X_factors; auto. apply (lx_down (tier a)); [lia|]. apply IHlx1. lia.
  - pose proof (reads_level _ _ _ _ H). apply X_cross; auto. apply (lx_down (tier a)); [lia|]. apply IHlx1. lia.
Qed.
Lemma opens_app s t : opens s -> opens (s ++ t). Proof. destruct s; [intros []|auto]. Qed.
Lemma closes_app s t : closes t -> closes (s ++ t).
Proof. intros (u & c & -> & H). exists (s ++ u), c. split; [apply app_assoc|exact H]. Qed.

Notation Q a := (forall k lead s, phrase expression k lead s a -> legible a ->
  lx (cap k a) lead (ast_latex a) a /\ (7 <= tier a -> opens (ast_latex a))).
Notation below a := (forall b, In b (children a) -> Q b).

Lemma inner_step b s : Q b -> expression s b -> legible b -> lx 0 true (ast_latex b) b.
Proof. intros H [He] Hl. destruct (H 0 true s He Hl) as [H1 _]. rewrite cap_7 in H1 by lia. exact H1. Qed.
Lemma inner_in l b s : (forall b, In b l -> Q b) -> In b l -> expression s b -> legible b -> lx 0 true (ast_latex b) b.
Proof. intros Hb Hi. apply inner_step. exact (Hb b Hi). Qed.
Lemma tail_in b (l : list (AST N)) : (forall c, In c (b :: l) -> Q c) -> (forall c, In c l -> Q c).
Proof. intros H c Hc. exact (H c (or_intror Hc)). Qed.
Lemma inner_list ss aa : Forall2 expression ss aa -> (forall b, In b aa -> Q b) -> every legible aa ->
  Forall2 (lx 0 true) (map ast_latex aa) aa.
Proof.
  intros H Hb Hl. induction H as [|s b ss aa He H IH]; cbn [map]; [constructor|]. destruct Hl as [H1 H2].
  constructor; [eapply inner_in; eauto; now left|]. apply IH; [exact (tail_in _ _ Hb)|auto].
Qed.
Lemma inner_any aa : (forall b, In b aa -> exists s, expression s b) -> (forall b, In b aa -> Q b) -> every legible aa ->
  Forall2 (lx 0 true) (map ast_latex aa) aa.
Proof.
  induction aa as [|b aa IH]; intros He Hb Hl; cbn [map]; [constructor|]. destruct Hl as [H1 H2]. destruct (He b (or_introl eq_refl)) as [s Hs].
  constructor; [eapply inner_in; eauto; now left|]. apply IH; [intros; apply He; now right|exact (tail_in _ _ Hb)|auto].
Qed.
Lemma name_opens n : name n -> opens n.
Proof. intros (c & t & -> & [H|H] & _); cbn; tauto. Qed.
Lemma pi_opens n : name n -> opens (pi_name n).
Proof. intros H. unfold pi_name. destruct (str_eqb n (lit "pi")); [cbn; tauto|now apply name_opens]. Qed.
Lemma var_reads n : name n -> lx 10 false (pi_name n) (AVar n : AST N).
Proof.
  intros H. unfold pi_name. destruct (str_eqb n (lit "pi")) eqn:E.
  - apply str_eqb_eq in E. subst. apply X_pi.
  - apply X_variable; [exact H|]. intros ->. now rewrite str_eqb_refl in E.
Qed.
Lemma matrix_latex (rows : list (list str)) : Forall (fun r => r <> []) rows ->
  latex_matrix rows = lit "\begin{bmatrix}" ++ List.concat (map (fun r => join (lit " & ") r ++ lit " \\") rows) ++ lit "\end{bmatrix}".
Proof.
  intros H. unfold latex_matrix. f_equal. f_equal. f_equal. induction H as [|r rows Hr H IH]; cbn [map]; [reflexivity|]. rewrite IH. destruct r; [congruence|reflexivity].
Qed.
Lemma rows_read m r c : shape m r c -> 0 < c -> (forall b, In b (List.concat m) -> exists s, expression s b) -> (forall b, In b (List.concat m) -> Q b) ->
  every (every legible) m ->
  Forall2 (Forall2 (lx 0 true)) (map (map ast_latex) m) m /\ Forall (fun r => r <> []) (map (map ast_latex) m).
Proof.
  intros [_ H] Hc. induction H as [|v m Hv H IH]; intros He Hb Hl; cbn [map]; [split; constructor|]. destruct Hl as [H1 H2]. cbn [List.concat] in He, Hb.
  assert (Hi1 : forall b, In b v -> In b (v ++ List.concat m)) by (intros; apply in_app_iff; auto).
  assert (Hi2 : forall b, In b (List.concat m) -> In b (v ++ List.concat m)) by (intros; apply in_app_iff; auto).
  destruct IH as [I1 I2]; auto; [exact (fun b Hi => Hb b (Hi2 b Hi))|].
  split; constructor; auto.
  - apply inner_any; auto. exact (fun b Hi => Hb b (Hi1 b Hi)).
  - destruct v; [cbn in Hv; lia|discriminate].
Qed.
Lemma transposed_in {A} (vs m : list (list A)) x : transpose_of vs m -> In x (List.concat m) -> In x (List.concat vs).
Proof.
  intros H Hx. apply in_concat in Hx as (r & Hr & Hx). apply In_nth_error in Hr as [i Hi]. apply In_nth_error in Hx as [j Hj].
  specialize (H i j). rewrite Hi, Hj in H. destruct (nth_error vs j) as [r'|] eqn:E; [|discriminate]. apply in_concat. exists r'. split; eapply nth_error_In; eauto.
Qed.
Lemma vector_items s v : expression s (AVector v : AST N) -> forall b, In b v -> exists t, expression t b.
Proof.
  intros [H] b Hb. apply vector_atom in H. inversion H as [| | | | | | |ss aa Hne Has HR Hv| | | |]; subst. clear - HR Hb.
  induction HR as [|t a ss v H HR IH]; [destruct Hb|]. destruct Hb as [->|Hb]; eauto.
Qed.
Lemma rows_items ss vs : Forall2 expression ss (map (@AVector N) vs) -> forall b, In b (List.concat vs) -> exists t, expression t b.
Proof.
  revert ss. induction vs as [|v vs IH]; intros ss H b Hb; [destruct Hb|]. cbn [List.concat map] in *. inversion H; subst. apply in_app_iff in Hb as [Hb|Hb]; [|eauto].
  eapply vector_items; eauto.
Qed.
Lemma entries_read es xs (eqs : list (AST N * AST N)) : Forall2 (entry expression) es xs ->
  eqs = flat_map (fun x => match x with inr q => [q] | inl _ => [] end) xs ->
  forall q, In q eqs -> (exists s, expression s (fst q)) /\ (exists s, expression s (snd q)).
Proof.
  intros H -> q Hq. induction H as [|e x es xs He H IH]; [destruct Hq|]. cbn [flat_map] in Hq. apply in_app_iff in Hq as [Hq|Hq]; [|auto].
  inversion He; subst; [destruct Hq|]. destruct Hq as [<-|[]]. destruct (Nat.leb _ _); cbn [fst snd]; eauto.
Qed.
Lemma system_read (eqs : list (AST N * AST N)) :
  (forall q, In q eqs -> (exists s, expression s (fst q)) /\ (exists s, expression s (snd q))) ->
  (forall b, In b (flat_map (fun q => [fst q; snd q]) eqs) -> Q b) -> every (fun q => legible (fst q) /\ legible (snd q)) eqs ->
  Forall2 (lx 0 true) (map (fun q => ast_latex (fst q)) eqs) (map fst eqs) /\ Forall2 (lx 0 true) (map (fun q => ast_latex (snd q)) eqs) (map snd eqs).
Proof.
  intros He Hb Hl. induction eqs as [|q eqs IH]; cbn [map]; [split; constructor|]. destruct Hl as [[L1 L2] Hl]. destruct (He q (or_introl eq_refl)) as [[s Hs] [t Ht]].
  destruct IH as [I1 I2]; auto; [intros; apply He; now right|exact (fun b Hi => Hb b (or_intror (or_intror Hi)))|].
  split; constructor; auto; [exact (inner_step _ s (Hb _ (or_introl eq_refl)) Hs L1)|exact (inner_step _ t (Hb _ (or_intror (or_introl eq_refl))) Ht L2)].
Qed.
Lemma combine_map {A B C} (f : A -> B) (g : A -> C) l : combine (map f l) (map g l) = map (fun x => (f x, g x)) l.
Proof. induction l; cbn; congruence. Qed.

Lemma atom_reads s a : atom expression s a -> below a -> legible a ->
  lx (cap 10 a) false (ast_latex a) a /\ (7 <= tier a -> opens (ast_latex a)).
Proof.
  intros H Hb Hl. inversion H; subst; cbn [children] in *.
  - (* number *) destruct Hl as [Hn (t & c & E & Hc)]. cbn [cap ast_latex]. split.
    + apply X_number; [|exact Hn]. rewrite E. now destruct t.
    + intros _. destruct Hn as [Hn _]. destruct (round_and_format x true) as [|y u]; [destruct t; discriminate|]. inversion Hn; subst. cbn. tauto.
  - (* name *) split; [now apply var_reads|intros _; now apply pi_opens].
  - (* parentheses *) cbn [legible] in Hl. split; [|intros _; cbn; tauto]. cbn [cap ast_latex op_latex]. apply X_brackets. eapply inner_in; eauto. now left.
  - (* function *)
    assert (Hi : legible a0 -> lx 0 true (ast_latex a0) a0) by (intros Hl'; eapply inner_in; eauto; now left).
    cbn in H0. repeat (destruct H0 as [H0|H0]; [injection H0 as <- <-; cbn [legible] in Hl; cbn [cap ast_latex op_latex]|]); try (destruct H0);
      try (split; [|intros _; cbn; tauto]).
    + apply (X_function OSin "\sin"); [cbn; tauto|auto].
    + apply (X_function OCos "\cos"); [cbn; tauto|auto].
    + apply (X_function OTan "\tan"); [cbn; tauto|auto].
    + apply X_abs; auto.
    + apply X_sqrt; auto.
    + apply (X_function OLn "\ln"); [cbn; tauto|auto].
    + apply (X_function OArcsin "\arcsin"); [cbn; tauto|auto].
    + apply (X_function OArccos "\arccos"); [cbn; tauto|auto].
    + apply (X_function OArctan "\arctan"); [cbn; tauto|auto].
    + apply (X_function ODet "\det"); [cbn; tauto|auto].
    + (* inverse *) destruct Hl as [Hl Ht]. destruct H1 as [H1].
      destruct (Hb a0 (or_introl eq_refl) 0 true s0 H1 Hl) as [G1 G2]. change (Nat.min 10 8) with 8. split; [|intros _; apply opens_app, G2; lia].
      apply X_inverse. apply (lx_down (tier a0)); [exact Ht|]. apply (lx_raise _ _ _ _ G1). lia.
  - (* root *) destruct Hl as [L1 L2]. split; [|intros _; cbn; tauto]. cbn [cap ast_latex op_latex]. apply X_root; eapply inner_in; eauto; cbn; tauto.
  - (* call *) cbn [legible] in Hl. cbn [cap ast_latex]. split; [|intros _; apply opens_app; now apply name_opens]. apply X_call; [assumption|]. eapply inner_list; eauto.
  - (* list *) cbn [legible] in Hl. split; [|intros _; cbn; tauto]. cbn [cap ast_latex]. apply X_set. eapply inner_list; eauto.
  - (* vector *) cbn [legible] in Hl. split; [|intros _; cbn; tauto]. cbn [cap ast_latex]. apply X_column. eapply inner_list; eauto.
  - (* matrix *) cbn [legible] in Hl. split; [|intros _; cbn; tauto]. cbn [cap ast_latex].
    assert (G : exists rr cc, shape m rr cc /\ 0 < cc /\ forall b, In b (List.concat m) -> In b (List.concat vs)).
    { destruct row_major; [subst m; exists r, c; auto|]. destruct H5 as [S1 S2]. exists c, r. repeat split; try apply S1; auto. intros b. now apply transposed_in. }
    destruct G as (rr & cc & Hsh & Hcc & Hin).
    destruct (rows_read m rr cc) as [R1 R2]; auto.
    { intros b Hb'. eapply rows_items; eauto. }
    rewrite matrix_latex by exact R2. now apply X_array.
  - (* derivative *) destruct Hl as [L1 L2]. split; [|intros _; cbn; tauto]. cbn [cap ast_latex]. apply X_derivative; eapply inner_in; eauto; cbn; tauto.
  - (* integral *) destruct Hl as (L1 & L2 & L3). split; [|intros _; cbn; tauto]. cbn [cap ast_latex]. change (Nat.min 10 7) with 7.
    apply X_integral; eapply inner_in; eauto; cbn; tauto.
  - (* system *) cbn [legible] in Hl. split; [|intros _; cbn; tauto]. cbn [cap ast_latex].
    destruct (system_read _ (entries_read es xs _ H1 eq_refl) Hb Hl) as [R1 R2].
    pose proof (X_system _ _ _ (flat_map (fun x => match x with inl v => [v] | inr _ => [] end) xs) R1 R2) as G. rewrite combine_map, map_map in G. exact G.
Qed.

Lemma last_cons_us (x : char) t : last t (ch "0") = ch "_" -> last (x :: t) (ch "0") = ch "_".
Proof. destruct t; [discriminate|auto]. Qed.
Lemma rest_end r : name_rest r -> forall t c, r = t ++ [c] -> is_digit c = true \/ c = ch ")" -> last t (ch "0") = ch "_" /\ is_digit c = true.
Proof.
  assert (Hpl : forall x, plain x -> is_digit x = true \/ x = ch ")" -> False).
  { intros x (H1 & _ & _ & _ & H2) [H| ->]; [|apply H1; cbn; tauto]. apply digit_numeric in H. congruence. }
  assert (Hcons : forall (x : char) v t c, x :: v = t ++ [c] -> t = [] /\ v = [] /\ x = c \/ exists t', t = x :: t' /\ v = t' ++ [c]).
  { intros x v t c E. destruct t as [|y t]; injection E as <- E; [left; auto|right]. eauto. }
  induction 1 as [|x v Hx Hv IH|d v Hd Hv IH|u v Hu Hv IH]; intros t c E Hc.
  - destruct t; discriminate.
  - destruct (Hcons _ _ _ _ E) as [(-> & -> & <-)|(t' & -> & ->)]; [now destruct (Hpl x Hx Hc)|]. destruct (IH t' c eq_refl Hc). split; [now apply last_cons_us|auto].
  - destruct (Hcons _ _ _ _ E) as [(-> & Ev & _)|(t' & -> & Ev)]; [discriminate|]. destruct (Hcons _ _ _ _ Ev) as [(-> & -> & <-)|(t2 & -> & ->)].
    + split; [reflexivity|]. destruct Hc as [Hc| ->]; [exact Hc|discriminate Hd].
    + destruct (IH t2 c eq_refl Hc). split; [now do 2 apply last_cons_us|auto].
  - destruct v as [|y v _] using rev_ind.
    + change (ch "{" :: u ++ [ch "}"]) with ((ch "{" :: u) ++ [ch "}"]) in E. apply app_inj_tail in E as [_ <-]. destruct Hc; discriminate.
    + replace (ch "{" :: u ++ ch "}" :: v ++ [y]) with ((ch "{" :: u ++ ch "}" :: v) ++ [y]) in E by (cbn; now rewrite <- app_assoc).
      apply app_inj_tail in E as [<- <-]. destruct (IH v y eq_refl Hc) as [H1 H2]. split; [|exact H2].
      rewrite app_comm_cons, last_app_ne by discriminate. now apply last_cons_us.
Qed.
Lemma name_end n t c : name n -> n = t ++ [c] -> is_digit c = true \/ c = ch ")" -> last t (ch "0") = ch "_".
Proof.
  intros (x & u & -> & _ & Hx & Hr) E Hc. apply (fun H => proj1 (rest_end (x :: u) H t c E Hc)). now apply NR_char.
Qed.
Definition closesb (s : str) : bool := match rev s with c :: _ => N.eqb c (ch "}") || N.eqb c (ch ")") | [] => false end.
Lemma closes_lit s : closesb s = true -> closes s.
Proof.
  unfold closesb. destruct (rev s) as [|c t] eqn:E; [discriminate|]. intros H. exists (rev t), c. split; [rewrite <- (rev_involutive s), E; reflexivity|].
  apply orb_true_iff in H as [H|H]; apply N.eqb_eq in H; tauto.
Qed.
Lemma variable_atom k lead s n : phrase expression k lead s (AVar n : AST N) -> s = n /\ name n.
Proof. intros H. remember (AVar n) as a eqn:E. induction H; try discriminate; auto. subst. inversion H; subst. auto. Qed.

Lemma parens_end (f t : str) (x c : char) l : f ++ x :: t ++ [ch ")"] = l ++ [c] -> c = ch ")".
Proof. rewrite app_comm_cons, app_assoc. intros E. apply app_inj_tail in E as [_ <-]. reflexivity. Qed.
Lemma abs_end k lead s (a z : AST N) l c : phrase expression k lead s (AOp OAbs a z) -> s = l ++ [c] -> c = ch ")".
Proof.
  intros H. remember (AOp OAbs a z) as b eqn:E. induction H; try discriminate; auto; subst.
  - inversion H; subst. now apply parens_end.
  - injection E as -> _ _. cbn in H. repeat (destruct H as [H|H]; [discriminate|]). destruct H.
  - injection E as -> _ _. cbn in H. repeat (destruct H as [H|H]; [discriminate|]). destruct H.
  - injection E as -> _ _. cbn in H. repeat (destruct H as [H|H]; [discriminate|]). destruct H.
Qed.
Lemma system_end k lead s eqs xs l c : phrase expression k lead s (AEq eqs xs : AST N) -> s = l ++ [c] -> c = ch ")".
Proof.
  intros H. remember (AEq eqs xs) as b eqn:E. induction H; try discriminate; auto; subst.
  inversion H; subst. rewrite app_assoc. intros G. apply app_inj_tail in G as [_ <-]. reflexivity.
Qed.
Ltac shut := left; repeat apply closes_app; apply closes_lit; reflexivity.
Lemma closes_tree l' c (a : AST N) k lead : phrase expression k lead (l' ++ [c]) a -> is_digit c = true \/ c = ch ")" -> last l' (ch "0") <> ch "_" ->
  8 <= tier a -> legible a -> closes (ast_latex a) \/ c = ch ")" /\ exists t, ast_latex a = t ++ [ch "|"].
Proof.
  intros Hp Hc Hu Ht Hl. destruct a; cbn [ast_latex].
  - destruct Hl as [_ (t & x & E & Hx)]. left. exists t, x. auto.
  - unfold latex_vector. shut.
  - unfold latex_matrix. shut.
  - unfold latex_set. shut.
  - exfalso. apply variable_atom in Hp as [E Hn]. apply Hu. symmetry in E. now apply (name_end s l' c).
  - shut.
  - destruct op; cbn [tier] in Ht; try lia; cbn [op_latex]; try shut.
    right. split; [eapply abs_end; eauto|]. exists (lit "|" ++ ast_latex a1). now rewrite <- app_assoc.
  - cbn [tier] in Ht. lia.
  - shut.
  - right. split; [eapply system_end; eauto|]. 
    match goal with |- exists t, ?x ++ ?y ++ ?z = _ => exists (x ++ y ++ lit "\end{align}\right") end. rewrite <- !app_assoc. reflexivity.
Qed.
(** An opening parenthesis becomes a command. *)
Lemma atom_parens r (a : AST N) : atom expression (ch "(" :: r) a -> exists t, ast_latex a = ch "\" :: t.
Proof.
  intros H. remember (ch "(" :: r) as s eqn:E. destruct H as [s x Hs Hn|s Hn| |op f s a Hf|  |f ss aa Hf| | | | | |]; try discriminate.
  - subst. destruct Hn as [Hn _]. inversion Hn as [|? ? [G|G]]; discriminate.
  - destruct Hn as (c & t & -> & Hc & _). injection E as -> _. destruct Hc; discriminate.
  - eexists. reflexivity.
  - cbn in Hf. repeat (destruct Hf as [Hf|Hf]; [injection Hf as <- <-; discriminate|]). destruct Hf.
  - destruct Hf as (c & t & -> & Hc & _). injection E as -> _. destruct Hc; discriminate.
Qed.
Lemma phrase_parens k lead s (a : AST N) : phrase expression k lead s a -> forall r, s = ch "(" :: r -> exists t, ast_latex a = ch "\" :: t.
Proof.
  assert (Hleft : forall (l x : str) r, l <> [] -> l ++ x = ch "(" :: r -> exists r', l = ch "(" :: r').
  { intros [|y l] x r H E; [congruence|]. injection E as -> _. eauto. }
  assert (Hop : forall k c op (a b : AST N), In (k, c, op) operators -> (exists t, ast_latex a = ch "\" :: t) -> exists t, ast_latex (AOp op a b) = ch "\" :: t).
  { intros k' c op a' b' H [t E]. cbn [ast_latex]. rewrite E. cbn in H. repeat (destruct H as [H|H]; [injection H as <- <- <-; eexists; reflexivity|]). destruct H. }
  induction 1 as [lead s a H|k lead s a H IH|k s a H IH|k lead c op l r a b Ho Hl H1 IH1 H2 IH2|k lead c op l r a b Ho Hl H1 IH1 H2 IH2|r b H IH|k c op r b Ho Hs H IH|lead l r a b Hj H1 IH1 H2 IH2];
    intros q E; eauto; subst; try discriminate.
  - eapply atom_parens; eauto.
  - destruct (Hleft l (c :: r) q) as [r' ->]; [eapply phrase_nonempty; eauto|exact E|]. eauto.
  - destruct (Hleft l (c :: r) q) as [r' ->]; [eapply phrase_nonempty; eauto|exact E|]. eauto.
  - injection E as -> _. cbn in Ho. repeat (destruct Ho as [Ho|Ho]; [discriminate|]). destruct Ho.
  - destruct (Hleft l r q) as [r' ->]; [eapply phrase_nonempty; eauto|exact E|]. destruct (IH1 _ eq_refl) as [t Et]. cbn [ast_latex op_latex]. rewrite Et. eexists. reflexivity.
Qed.
Lemma sides l r a b k1 lead1 k2 lead2 : juxtaposed l r -> phrase expression k1 lead1 l a -> phrase expression k2 lead2 r b -> 8 <= tier a -> legible a ->
  opens (ast_latex b) -> ~ starts_numeral (ast_latex b) -> side_by_side (ast_latex a) (ast_latex b).
Proof.
  intros (l' & c & d & r' & -> & -> & Hu & Hcd) Ha Hb Ht Hl Ho Hn.
  assert (Hc : is_digit c = true \/ c = ch ")") by tauto.
  destruct (closes_tree l' c a k1 lead1 Ha Hc Hu Ht Hl) as [(t & x & E & Hx)|[-> (t & E)]].
  - destruct (ast_latex b) as [|y u]; [destruct Ho|]. exists t, x, y, u. split; [exact E|]. split; [reflexivity|]. left. split; [exact Hx|]. cbn in Ho, Hn. tauto.
  - destruct Hcd as [[H _]|[_ ->]]; [discriminate|]. destruct (phrase_parens _ _ _ _ Hb _ eq_refl) as [u Eu].
    exists t, (ch "|"), (ch "\"), u. auto.
Qed.

(** *** Phrases *)
Lemma phrase_tier k lead s (a : AST N) : phrase expression k lead s a -> Nat.min k 7 <= tier a.
Proof.
  induction 1 as [lead s a H|k lead s a H IH|k s a H IH|k lead c op l r a b Ho Hl H1 IH1 H2 IH2|k lead c op l r a b Ho Hl H1 IH1 H2 IH2|r b H IH|k c op r b Ho Hs H IH|lead l r a b Hj H1 IH1 H2 IH2];
    try lia; try (cbn in Ho; repeat (destruct Ho as [Ho|Ho]; [injection Ho as <- <- <-; cbn; lia|]); destruct Ho); [|cbn; lia|cbn; lia].
  destruct H; try (cbn; lia). cbn in H. repeat (destruct H as [H|H]; [injection H as <- _; cbn; lia|]). destruct H.
Qed.
Lemma phrase_reads k lead s a : phrase expression k lead s a -> below a -> legible a ->
  lx (cap k a) lead (ast_latex a) a /\ (7 <= tier a -> opens (ast_latex a)).
Proof.
  assert (Hbin : forall k lead c op (a b : AST N) lft,
    In (k, c, op) operators -> Q a -> Q b -> legible (AOp op a b) ->
    (exists s, phrase expression (if left_assoc k then k else S k) lead s a) \/ lft = true /\ lx 10 false (ast_latex a) a /\ opens (ast_latex a) ->
    (exists s, phrase expression (if left_assoc k then S k else k) (Nat.eqb k 0) s b) ->
    lx (cap k (AOp op a b)) lead (ast_latex (AOp op a b)) (AOp op a b) /\ (7 <= tier (AOp op a b) -> opens (ast_latex (AOp op a b)))).
  { intros k' lead' c op a' b' lft Ho Qa Qb Hl Ha [sb Hb].
    assert (Xa : legible a' -> forall j, j <= (if left_assoc k' then k' else S k') -> j <= 7 \/ j <= tier a' -> lx j lead' (ast_latex a') a').
    { intros Hla j Hj Hj'. destruct Ha as [[sa Ha]|(_ & Ha & _)].
      - destruct (Qa _ _ _ Ha Hla) as [G _]. apply (lx_down (cap (if left_assoc k' then k' else S k') a')); [|exact G].
        destruct a'; cbn [cap tier] in *; try lia. destruct op0; cbn [tier] in *; lia.
      - apply lx_free. apply (lx_down 10); [|exact Ha]. destruct (left_assoc k'); clear - Ho Hj; cbn in Ho; repeat (destruct Ho as [Ho|Ho]; [injection Ho as <- _ _; lia|]); destruct Ho. }
    assert (Xb : legible b' -> forall j, j <= (if left_assoc k' then S k' else k') -> j <= 7 -> lx j (Nat.eqb k' 0) (ast_latex b') b').
    { intros Hlb j Hj Hj'. destruct (Qb _ _ _ Hb Hlb) as [G _]. apply (lx_down (cap (if left_assoc k' then S k' else k') b')); [|exact G].
      destruct b'; cbn [cap]; try lia. destruct op0; lia. }
    assert (Xi : legible b' -> lx 0 true (ast_latex b') b').
    { intros Hlb. eapply lx_lead. apply (Xb Hlb 0); lia. }
    assert (Oa : legible a' -> 7 <= tier a' -> opens (ast_latex a')).
    { intros Hla Ht. destruct Ha as [[sa Ha]|(_ & _ & Ha)]; [|exact Ha]. now destruct (Qa _ _ _ Ha Hla) as [_ G]; apply G. }
    cbn in Ho. repeat (destruct Ho as [Ho|Ho]; [injection Ho as <- <- <-; cbn [legible] in Hl; cbn [left_assoc Nat.eqb orb] in *; cbn [cap ast_latex op_latex tier]|]); try (destruct Ho).
    - destruct Hl as [La Lb]. split; [|lia]. apply X_sum; [apply Xa; auto; lia|apply Xb; auto; lia].
    - destruct Hl as [La Lb]. split; [|lia]. apply X_difference; [apply Xa; auto; lia|apply Xb; auto; lia].
    - destruct Hl as (La & Lb & Lc). split; [|lia]. apply X_plus_minus; [apply Xa; auto; lia|apply Xb; auto; lia|exact Lc].
    - destruct Hl as [La Lb]. split; [|lia]. apply X_dot; [apply Xa; auto; lia|apply Xb; auto; lia].
    - destruct Hl as [La Lb]. split; [|intros _; cbn; tauto]. apply lx_free. apply (lx_down 10); [lia|]. apply X_fraction; [|auto].
      eapply lx_lead. apply (Xa La 0); lia.
    - destruct Hl as [La Lb]. split; [|lia]. apply X_cross; [apply Xa; auto; lia|apply Xb; auto; lia].
    - destruct Hl as (La & Lb & Lt). split; [|intros _; apply opens_app, Oa; auto; lia]. apply X_power; [apply Xa; auto; lia|auto].
    - destruct Hl as (La & Lb & Lt & Lbare). split; [|intros _; apply opens_app, Oa; auto; lia]. apply X_index; [apply Xa; auto; lia|auto|auto]. }
  intros H. induction H as [lead s a H|k lead s a H IH|k s a H IH|k lead c op l r a b Hop Hl H1 _ H2 _|k lead c op l r a b Hop Hl H1 _ H2 _|r b H _|k c op r b Hop Hs H _|lead l r a b Hj H1 _ H2 _];
    intros Hb Hp.
  - destruct (atom_reads s a H Hb Hp) as [G1 G2]. split; [now apply lx_free|exact G2].
  - destruct (IH Hb Hp) as [G1 G2]. split; [|exact G2]. apply (lx_down (cap (S k) a)); [|exact G1]. destruct a; cbn [cap]; try lia. destruct op; lia.
  - destruct (IH Hb Hp) as [G1 G2]. split; [|exact G2]. now apply X_lead.
  - apply (Hbin k lead c op a b false Hop (Hb a (or_introl eq_refl)) (Hb b (or_intror (or_introl eq_refl))) Hp); rewrite Hl; [left; eauto|].
    replace (Nat.eqb k 0) with false; [eauto|]. destruct k; [discriminate Hl|reflexivity].
  - apply (Hbin k lead c op a b false Hop (Hb a (or_introl eq_refl)) (Hb b (or_intror (or_introl eq_refl))) Hp); rewrite Hl; [left; eauto|eauto].
  - cbn [legible] in Hp. split; [|cbn [tier]; lia]. cbn [cap ast_latex op_latex]. apply X_minus. destruct (Hb b (or_intror (or_introl eq_refl)) _ _ _ H Hp) as [G _]. now rewrite cap_7 in G by lia.
  - apply (Hbin k true c op (AScalar n0) b true Hop (Hb _ (or_introl eq_refl)) (Hb b (or_intror (or_introl eq_refl))) Hp); [|eauto].
    right. split; [reflexivity|].
    assert (L0 : shown_exactly n0).
    { clear - Hop Hs Hp. cbn in Hop. repeat (destruct Hop as [Hop|Hop]; [injection Hop as <- <- <-; (congruence || apply Hp)|]); destruct Hop. }
    destruct L0 as [Hn (t & x & E & Hx)]. cbn [ast_latex]. split; [apply X_number; [rewrite E; now destruct t|exact Hn]|].
    destruct Hn as [Hn _]. destruct (round_and_format n0 true) as [|y u]; [destruct t; discriminate|]. inversion Hn; subst. cbn. tauto.
  - destruct Hp as (La & Lb & Lt & Ln).
    destruct (Hb a (or_introl eq_refl) _ _ _ H1 La) as [A1 A2]. destruct (Hb b (or_intror (or_introl eq_refl)) _ _ _ H2 Lb) as [B1 B2].
    rewrite cap_tier in A1 by exact Lt. rewrite cap_7 in B1 by lia. cbn [cap ast_latex op_latex].
    assert (Tb : 7 <= tier b) by (apply phrase_tier in H2; lia).
    split; [|intros _; apply opens_app, A2; lia]. apply X_factors; auto. eapply sides; eauto.
Qed.
Theorem tree_reads a : Q a.
Proof. revert a. apply (children_ind (fun a => Q a)). intros b Hb k lead s Hph Hl. exact (phrase_reads k lead s b Hph Hb Hl). Qed.

(** ** C57 *)
(** For every text of the language whose tree is legible: the LaTeX of the
    parsed expression is read as this expression. *)
Theorem c57_reads s a : only_blanks s -> expression (no_blanks s) a -> legible a ->
  parse s = Ok a /\ LatexGrammar.reads (ast_latex a) a.
Proof.
  intros Hs He Hl. split; [now apply c03_grammar|]. exact (inner_step a (no_blanks s) (tree_reads a) He Hl).
Qed.
(** Trees that are read group as the conventions say. *)
Theorem c57_reading_groups s a : LatexGrammar.reads s a -> grouped (a : AST N).
Proof. apply reads_grouped. Qed.
End Latex.

(** *** Numbers *)
Section Floats.
Context {En : Env} (lm : Libm).
Local Instance NF : Num := F64 lm.
(** Finite numbers that are printed exactly are shown exactly (see c54_numbers). *)
Theorem c57_numbers (x : f64) : finite x -> @reads_as_printed NF En x -> @shown_exactly NF En x.
Proof.
  intros Hx H. assert (E : @round_and_format NF En x true = @round_and_format NF En x false); [|unfold shown_exactly; rewrite E; exact H].
  destruct (feqb x f0) eqn:E0; [rewrite !(c44_zero lm) by assumption; reflexivity|].
  destruct (feqb (@round_num NF (PREC - 2) x) f0) eqn:E1.
  - exfalso. destruct (c44_scientific lm x Hx E0 E1) as (mant & ex & _ & T & _). destruct H as [[H _] _].
    assert (T' : @round_and_format NF En x false = mant ++ lit "e" ++ ex) by exact T. rewrite T' in H.
    apply Forall_app in H as [_ H]. inversion H as [|? ? [G|G]]; discriminate.
  - unfold round_and_format. cbv zeta. change (@neqb NF) with feqb. change (@n0 NF) with f0. rewrite E1. reflexivity.
Qed.
End Floats.

Module Examples.
Section Ex.
Context {N : Num} {En : Env}.
Definition v (n : string) : AST N := AVar (lit n).
Lemma letter_name n : In n ["a"; "b"; "x"; "A"] -> name (lit n).
Proof.
  intros H. cbn in H. repeat (destruct H as [<-|H]; [eexists _, []; split; [reflexivity|]; split; [left; reflexivity|]; split; [|constructor];
    repeat split; try discriminate; try reflexivity; cbn; intuition discriminate|]). destruct H.
Qed.
Lemma letter k lead n : In n ["a"; "b"; "x"; "A"] -> k <= 10 -> phrase expression k lead (lit n) (v n).
Proof. intros H Hk. apply (phrase_down 10); [exact Hk|]. apply P_atom, A_variable. now apply letter_name. Qed.
(** a/b-I(sin(x),x,a,b)*inv(A) *)
Definition tree1 : AST N :=
  AOp OSub (AOp ODiv (v "a") (v "b"))
           (AOp OMult (AInt (AOp OSin (v "x") (AScalar n0)) (lit "x") (v "a") (v "b")) (AOp OInv (v "A") (AScalar n0))).
Example tree1_text : expression (lit "a/b-I(sin(x),x,a,b)*inv(A)") tree1.
Proof.
  constructor. apply (phrase_down 1); [lia|].
  apply (P_left expression 1 true (ch "-") OSub (lit "a/b") (lit "I(sin(x),x,a,b)*inv(A)")); [cbn; tauto|reflexivity| |].
  - apply (phrase_down 5); [lia|]. apply (P_right expression 5 true (ch "/") ODiv (lit "a") (lit "b")); [cbn; tauto|reflexivity| |]; apply letter; cbn; tauto || lia.
  - apply (phrase_down 3); [lia|]. apply (P_left expression 3 false (ch "*") OMult (lit "I(sin(x),x,a,b)") (lit "inv(A)")); [cbn; tauto|reflexivity| |].
    + apply (phrase_down 10); [lia|]. apply P_atom.
      apply (A_integral expression (lit "sin(x)") (lit "x") (lit "a") (lit "b")); try (constructor; apply letter; [cbn; tauto|lia]).
      * constructor. apply (phrase_down 10); [lia|]. apply P_atom. apply (A_function expression OSin "sin" (lit "x")); [cbn; tauto|]. constructor. apply letter; [cbn; tauto|lia].
      * apply AT_char; [cbn; intuition discriminate|discriminate|constructor].
    + apply (phrase_down 10); [lia|]. apply P_atom. apply (A_function expression OInv "inv" (lit "A")); [cbn; tauto|]. constructor. apply letter; [cbn; tauto|lia].
Qed.
Example tree1_legible : legible tree1. Proof. cbn. repeat split; auto. Qed.
Example tree1_latex : ast_latex tree1 = lit "\frac{a}{b}-\int_{a}^{b}\sin\left(x\right) dx\cdot A^{-1}". Proof. reflexivity. Qed.
Example tree1_reads : LatexGrammar.reads (lit "\frac{a}{b}-\int_{a}^{b}\sin\left(x\right) dx\cdot A^{-1}") tree1.
Proof. rewrite <- tree1_latex. apply (c57_reads (lit "a/b-I(sin(x),x,a,b)*inv(A)")); [|exact tree1_text|exact tree1_legible].
  intros c Hc Hw. cbn in Hc. repeat (destruct Hc as [<-|Hc]; [discriminate Hw|]). destruct Hc.
Qed.
(** A sum times something is not read without brackets. *)
Example no_sum_in_product s a b c : ~ LatexGrammar.reads s (AOp OMult (AOp OAdd a b) c : AST N).
Proof. intros H. apply c57_reading_groups in H. cbn in H. lia. Qed.
Definition latex_of (s : string) : res ParserError str := do a <- parse (lit s); Ok (ast_latex (a : AST N)).
(** What is excluded really is misprinted: the LaTeX of [a+-b] is the command
    \pmb; an inverted sum lacks brackets; so does the square of an integral. *)
Example plus_minus_latex : latex_of "a&b" = Ok (lit "a\pmb"). Proof. vm_compute. reflexivity. Qed.
Example inverse_latex : latex_of "inv(a+b)" = Ok (lit "a+b^{-1}"). Proof. vm_compute. reflexivity. Qed.
Example inverse_power_latex : latex_of "inv(a)^b" = Ok (lit "a^{-1}^{b}"). Proof. vm_compute. reflexivity. Qed.
Example integral_power_latex : latex_of "I(x,x,a,b)^c" = Ok (lit "\int_{a}^{b}x dx^{c}"). Proof. vm_compute. reflexivity. Qed.
Example index_index_latex : latex_of "a_1?b" = Ok (lit "a_1_{b}"). Proof. vm_compute. reflexivity. Qed.
End Ex.
(** 2 times the inverse of 3 is shown as the inverse of 23. *)
Example number_inverse_latex lm : @latex_of (F64 lm) ET "2inv(3)" = Ok (lit "23^{-1}"). Proof. vm_compute. reflexivity. Qed.
End Examples.
