(** * PropLatex: C46 - the generated LaTeX is balanced. *)
From Coq Require Import List NArith ZArith Bool String Arith Lia SpecFloat.
From Verif Require Import Base BaseFacts F64 Num Types Print FloatFacts DecimalText DecimalFloat DecimalShort PrintFloat PropPrint LatexSpec Toy.
Import ListNotations.
Local Open Scope string_scope.
Local Open Scope list_scope.

(** ** Moves of the reader *)
(** Reading [s] replaces [a] on top of the stack by [b]. *)
Definition moves (s : str) (a b : list opened) : Prop := forall m st, calm m = true ->
  exists m', run s (m, a ++ st) = Some (m', b ++ st) /\ calm m' = true.
Lemma run_app s t x : run (s ++ t) x = match run s x with Some y => run t y | None => None end.
Proof. revert x. induction s as [|c s IH]; intros x; cbn [app run]; [reflexivity|]. destruct (step x c); [apply IH|reflexivity]. Qed.
Lemma moves_app s t a b c : moves s a b -> moves t b c -> moves (s ++ t) a c.
Proof.
  intros H1 H2 m st Hm. destruct (H1 m st Hm) as (m1 & E1 & C1). destruct (H2 m1 st C1) as (m2 & E2 & C2). exists m2. split; [|exact C2].
  now rewrite run_app, E1.
Qed.
Lemma neutral_moves s : neutral s <-> moves s [] [].
Proof. split; intros H; exact H. Qed.
Lemma neutral_frame s a : neutral s -> moves s a a.
Proof. intros H m st Hm. apply (H m (a ++ st) Hm). Qed.
Lemma neutral_balanced s : neutral s -> balanced s.
Proof. intros H. destruct (H Plain [] eq_refl) as (m & E & C). exists m. auto. Qed.
Lemma neutral_nil : neutral [].
Proof. intros m st Hm. exists m. auto. Qed.
Lemma neutral_app s t : neutral s -> neutral t -> neutral (s ++ t).
Proof. intros H1 H2. apply neutral_moves. eapply moves_app; eauto using neutral_frame. Qed.

(** A calm reader reads a character that is not a letter as in plain text. *)
Lemma calm_step m st c : calm m = true -> letter c = false -> step (m, st) c = plain c st.
Proof.
  intros Hm Hc. destruct m as [|w|]; [reflexivity| |discriminate]. cbn [step calm] in *. rewrite Hc.
  apply andb_true_iff in Hm as [H1 H2]. apply negb_true_iff in H1, H2. rewrite H1. cbn [existsb keywords] in H2.
  assert (G : forall k, starts_with k w = false -> str_eqb w k = false).
  { intros k Hk. destruct (str_eqb w k) eqn:E; [|reflexivity]. apply str_eqb_eq in E. subst k. 
    assert (R : starts_with w w = true) by (clear; induction w as [|x w IH]; cbn; [reflexivity|]; now rewrite N.eqb_refl). congruence. }
  repeat (apply orb_false_iff in H2 as [? H2]). now rewrite !G by assumption.
Qed.
Lemma moves_lit c t a b : letter c = false -> (forall st, exists m', run (c :: t) (Plain, a ++ st) = Some (m', b ++ st) /\ calm m' = true) -> moves (c :: t) a b.
Proof.
  intros Hc H m st Hm. destruct (H st) as (m' & E & C). exists m'. split; [|exact C]. cbn [run] in *. now rewrite (calm_step m _ c Hm Hc).
Qed.
Ltac lit_moves := apply moves_lit; [reflexivity|]; intros st; eexists; split; [reflexivity|reflexivity].

(** Text without backslashes and curly brackets. *)
Definition ordinary (s : str) : Prop := Forall (fun c => ~ In c (lit "\{}&")) s.
Lemma ordinary_plain c st : ~ In c (lit "\{}&") -> plain c st = Some (Plain, st).
Proof.
  intros H. cbn in H. unfold plain. destruct (N.eqb_spec c 92); [subst; tauto|]. destruct (N.eqb_spec c 123); [subst; tauto|]. destruct (N.eqb_spec c 125); [subst; tauto|]. destruct (N.eqb_spec c 38); [subst; tauto|]. reflexivity.
Qed.
Lemma starts_with_app k w c : starts_with k (w ++ [c]) = true -> starts_with k w = true.
Proof.
  revert k. induction w as [|x w IH]; intros [|y k]; cbn; auto; try discriminate. intros H. apply andb_true_iff in H as [H1 H2]. rewrite H1. now apply IH.
Qed.
Lemma neutral_char c : ~ In c (lit "\{}&") -> neutral [c].
Proof.
  intros Hc m st Hm. cbn [run]. destruct (letter c) eqn:L.
  - destruct m as [|w|]; [|exists (Command (w ++ [c]))|discriminate].
    + exists Plain. cbn [step]. rewrite ordinary_plain by assumption. auto.
    + cbn [step]. rewrite L. split; [reflexivity|]. cbn [calm] in *. apply andb_true_iff in Hm as [H1 H2]. apply andb_true_iff. split; [now destruct w|].
      apply negb_true_iff in H2. apply negb_true_iff. destruct (existsb (fun k => starts_with k (w ++ [c])) keywords) eqn:E; [|reflexivity]. rewrite <- H2. symmetry.
      apply existsb_exists in E as (k & I & E). apply existsb_exists. exists k. split; [exact I|]. now apply starts_with_app in E.
  - exists Plain. rewrite (calm_step m st c Hm L), ordinary_plain by assumption. auto.
Qed.
Lemma neutral_ordinary s : ordinary s -> neutral s.
Proof.
  intros H. induction H as [|c s Hc H IH]; [apply neutral_nil|]. change (c :: s) with ([c] ++ s). apply neutral_app; [now apply neutral_char|exact IH].
Qed.
Ltac ord := apply neutral_ordinary; repeat constructor; cbn; intuition discriminate.
(** The names with a Unicode symbol are harmless. *)
Lemma neutral_command w : calm (Command w) = true -> Forall (fun c => letter c = true) w -> neutral (92%N :: w).
Proof.
  intros Hw Hl. apply neutral_moves, moves_lit; [reflexivity|]. intros st. exists (Command w). split; [|exact Hw].
  change (run (92%N :: w) (Plain, [] ++ st)) with (run w (Command [], st)).
  assert (G : forall u v, Forall (fun c => letter c = true) v -> run v (Command u, st) = Some (Command (u ++ v), st)).
  { intros u v Hv. revert u. induction Hv as [|c v Hc Hv IH]; intros u; cbn [run]; [now rewrite app_nil_r|]. cbn [step]. rewrite Hc, IH. now rewrite <- app_assoc. }
  now rewrite G.
Qed.
Lemma neutral_symbols n : In n (map fst var_symbols) -> neutral n.
Proof.
  intros H. assert (A : forallb (fun s => match s with c :: w => if N.eqb c 92 then calm (Command w) && forallb letter w else forallb (fun c => negb (contains (lit "\{}&") c)) s | [] => true end) (map fst var_symbols) = true) by (vm_compute; reflexivity).
  rewrite forallb_forall in A. apply A in H. destruct n as [|c w]; [apply neutral_nil|]. destruct (N.eqb_spec c 92) as [->|].
  - apply andb_true_iff in H as [H1 H2]. apply neutral_command; [exact H1|]. apply Forall_forall. now apply forallb_forall.
  - apply neutral_ordinary. apply Forall_forall. intros x Hx I. rewrite forallb_forall in H. apply H in Hx. apply negb_true_iff in Hx.
    unfold contains in Hx. assert (existsb (N.eqb x) (lit "\{}&") = true); [|congruence]. apply existsb_exists. exists x. split; [exact I|apply N.eqb_refl].
Qed.

Lemma line_neutral s : (forall n, moves s [OEnv n] [OEnv n]) -> balanced_line s.
Proof.
  intros H. apply neutral_balanced, neutral_moves. eapply moves_app; [instantiate (1 := [OEnv (lit "align*")]); lit_moves|].
  eapply moves_app; [apply H|lit_moves].
Qed.
Lemma moves_join sep l a : moves sep a a -> Forall neutral l -> moves (join sep l) a a.
Proof.
  intros Hs H. induction H as [|x l Hx H IH]; [apply neutral_frame, neutral_nil|]. destruct l as [|y l]; [now apply neutral_frame|].
  change (join sep (x :: y :: l)) with (x ++ sep ++ join sep (y :: l)). eapply moves_app; [now apply neutral_frame|]. eapply moves_app; eauto.
Qed.
Lemma moves_concat l a : Forall (fun s => moves s a a) l -> moves (List.concat l) a a.
Proof. intros H. induction H; cbn [List.concat]; [apply neutral_frame, neutral_nil|]. eapply moves_app; eauto. Qed.
Lemma neutral_join sep l : neutral sep -> Forall neutral l -> neutral (join sep l).
Proof.
  intros Hs H. induction H as [|x l Hx H IH]; [apply neutral_nil|]. destruct l as [|y l]; [exact Hx|].
  change (join sep (x :: y :: l)) with (x ++ sep ++ join sep (y :: l)). repeat apply neutral_app; auto.
Qed.
Lemma neutral_concat l : Forall neutral l -> neutral (List.concat l).
Proof. intros H. induction H; cbn [List.concat]; [apply neutral_nil|]. now apply neutral_app. Qed.
Lemma neutral_lit c t : letter c = false -> (forall st, exists m', run (c :: t) (Plain, st) = Some (m', st) /\ calm m' = true) -> neutral (c :: t).
Proof. intros H1 H2. apply neutral_moves. now apply moves_lit. Qed.
Ltac lit_neutral := apply neutral_lit; [reflexivity|]; intros st; eexists; split; [reflexivity|reflexivity].
(** [p] opens, [q] closes. *)
Lemma moves_wrap p o a q : moves p [] o -> moves a o o -> moves q o [] -> neutral (p ++ a ++ q).
Proof. intros H1 H2 H3. apply neutral_moves. eapply moves_app; [exact H1|]. eapply moves_app; [exact H2|exact H3]. Qed.
Lemma neutral_wrap p o a q : moves p [] o -> neutral a -> moves q o [] -> neutral (p ++ a ++ q).
Proof. intros H1 H2 H3. apply neutral_moves. eapply moves_app; [exact H1|]. eapply moves_app; [apply neutral_frame; exact H2|exact H3]. Qed.

Lemma neutral_vector l : Forall neutral l -> neutral (latex_vector l).
Proof.
  intros H. unfold latex_vector. apply (neutral_wrap _ [OEnv (lit "pmatrix")]); [lit_moves| |lit_moves]. apply neutral_join; [lit_neutral|exact H].
Qed.
Lemma neutral_matrix m : Forall (Forall neutral) m -> neutral (latex_matrix m).
Proof.
  intros H. unfold latex_matrix. apply (moves_wrap _ [OEnv (lit "bmatrix")]); [lit_moves| |lit_moves]. apply moves_concat.
  apply Forall_map. eapply Forall_impl; [|exact H]. intros r Hr. cbv beta. destruct r; [apply neutral_frame, neutral_nil|].
  eapply moves_app; [|apply neutral_frame; lit_neutral]. apply moves_join; [lit_moves|exact Hr].
Qed.
Lemma neutral_set l : Forall neutral l -> neutral (latex_set l).
Proof.
  intros H. unfold latex_set. apply (neutral_wrap _ [OLeft]); [lit_moves| |lit_moves]. apply neutral_join; [ord|exact H].
Qed.
Lemma neutral_pi n : neutral n -> neutral (pi_name n).
Proof. intros H. unfold pi_name. destruct (str_eqb n (lit "pi")); [lit_neutral|exact H]. Qed.
Lemma moves_same s t a : moves s a a -> moves t a a -> moves (s ++ t) a a.
Proof. intros. eapply moves_app; eauto. Qed.
Lemma line_aligner b n : moves (aligner b) [OEnv n] [OEnv n].
Proof. destruct b; [lit_moves|apply neutral_frame, neutral_nil]. Qed.
Lemma neutral_aligner : neutral (aligner false).
Proof. apply neutral_nil. Qed.

Section Latex.
Context {N : Num} {En : Env}.
(** Numbers are printed without brackets (binary64: shown below). *)
Hypothesis Hnum : forall x : T, neutral (round_and_format x true).

Lemma neutral_op op l r : neutral l -> neutral r -> neutral (op_latex op l r).
Proof.
  intros Hl Hr.
  assert (Call : forall p, moves p [] [OLeft] -> neutral (p ++ l ++ lit "\right)")).
  { intros p Hp. apply (neutral_wrap _ [OLeft]); [exact Hp|exact Hl|lit_moves]. }
  destruct op; cbn [op_latex].
  - apply neutral_app; [exact Hl|]. apply neutral_app; [ord|exact Hr].
  - apply neutral_app; [exact Hl|]. apply neutral_app; [ord|exact Hr].
  - apply neutral_app; [exact Hl|]. apply neutral_app; [lit_neutral|exact Hr].
  - apply neutral_app; [ord|exact Hr].
  - apply neutral_app; [exact Hl|]. apply neutral_app; [lit_neutral|exact Hr].
  - apply neutral_moves. eapply moves_app; [instantiate (1 := [OBrace]); lit_moves|]. eapply moves_app; [apply neutral_frame; exact Hl|].
    eapply moves_app; [instantiate (1 := [OBrace]); lit_moves|]. eapply moves_app; [apply neutral_frame; exact Hr|lit_moves].
  - apply neutral_app; [exact Hl|]. apply neutral_app; [lit_neutral|exact Hr].
  - now apply neutral_app.
  - apply neutral_app; [exact Hl|]. apply (neutral_wrap _ [OBrace]); [lit_moves|exact Hr|lit_moves].
  - apply neutral_app; [exact Hl|]. apply (neutral_wrap _ [OBrace]); [lit_moves|exact Hr|lit_moves].
  - rewrite app_assoc. apply Call. lit_moves.
  - rewrite app_assoc. apply Call. lit_moves.
  - rewrite app_assoc. apply Call. lit_moves.
  - apply neutral_app; [ord|]. apply neutral_app; [exact Hl|ord].
  - apply (neutral_wrap _ [OBrace]); [lit_moves|exact Hl|lit_moves].
  - apply neutral_app; [lit_neutral|]. apply neutral_app; [exact Hr|]. apply (neutral_wrap _ [OBrace]); [lit_moves|exact Hl|lit_moves].
  - rewrite app_assoc. apply Call. lit_moves.
  - rewrite app_assoc. apply Call. lit_moves.
  - rewrite app_assoc. apply Call. lit_moves.
  - rewrite app_assoc. apply Call. lit_moves.
  - rewrite app_assoc. apply Call. lit_moves.
  - apply neutral_app; [exact Hl|lit_neutral].
  - apply Call. lit_moves.
Qed.

(** Induction over trees, through the lists in them. *)
Definition every {A} (Q : A -> Prop) (l : list A) : Prop := fold_right (fun x acc => Q x /\ acc) True l.
Lemma every_Forall {A} (Q : A -> Prop) l : every Q l <-> Forall Q l.
Proof. induction l; cbn; split; intros H; try constructor; try inversion H; subst; intuition. Qed.
Section Induction.
Variable Q : AST N -> Prop.
Hypothesis HS : forall x, Q (AScalar x).
Hypothesis HV : forall l, Forall Q l -> Q (AVector l).
Hypothesis HM : forall m, Forall (Forall Q) m -> Q (AMatrix m).
Hypothesis HL : forall l, Forall Q l -> Q (AList l).
Hypothesis Hv : forall n, Q (AVar n).
Hypothesis HF : forall n l, Forall Q l -> Q (AFun n l).
Hypothesis HO : forall op l r, Q l -> Q r -> Q (AOp op l r).
Hypothesis HI : forall e x l u, Q e -> Q l -> Q u -> Q (AInt e x l u).
Hypothesis HD : forall e x a, Q e -> Q a -> Q (ADer e x a).
Hypothesis HE : forall eqs xs, Forall (fun e => Q (fst e) /\ Q (snd e)) eqs -> Q (AEq eqs xs).
Fixpoint tree_ind (a : AST N) : Q a :=
  let all := fix all l : Forall Q l := match l with [] => Forall_nil _ | x :: t => Forall_cons _ (tree_ind x) (all t) end in
  match a with
  | AScalar x => HS x
  | AVector l => HV l (all l)
  | AMatrix m => HM m ((fix rows m : Forall (Forall Q) m := match m with [] => Forall_nil _ | r :: t => Forall_cons _ (all r) (rows t) end) m)
  | AList l => HL l (all l)
  | AVar n => Hv n
  | AFun n l => HF n l (all l)
  | AOp op l r => HO op l r (tree_ind l) (tree_ind r)
  | AInt e x l u => HI e x l u (tree_ind e) (tree_ind l) (tree_ind u)
  | ADer e x a => HD e x a (tree_ind e) (tree_ind a)
  | AEq eqs xs => HE eqs xs ((fix pairs l : Forall (fun e => Q (fst e) /\ Q (snd e)) l :=
      match l with [] => Forall_nil _ | x :: t => Forall_cons x (conj (tree_ind (fst x)) (tree_ind (snd x))) (pairs t) end) eqs)
  end.
End Induction.

(** Every name written in the tree satisfies [P]. *)
Fixpoint names_ok (P : str -> Prop) (a : AST N) : Prop :=
  match a with
  | AScalar _ => True
  | AVector v => every (names_ok P) v
  | AMatrix m => every (every (names_ok P)) m
  | AList l => every (names_ok P) l
  | AVar v => P v
  | AFun n inputs => P n /\ every (names_ok P) inputs
  | AOp _ l r => names_ok P l /\ names_ok P r
  | AInt e x l u => P x /\ names_ok P e /\ names_ok P l /\ names_ok P u
  | ADer e x at_ => P x /\ names_ok P e /\ names_ok P at_
  | AEq eqs _ => every (fun e => names_ok P (fst e) /\ names_ok P (snd e)) eqs
  end.
Lemma neutral_list l : Forall (fun a => names_ok neutral a -> neutral (ast_latex a)) l -> every (names_ok neutral) l -> Forall neutral (map ast_latex l).
Proof. intros H. induction H; cbn [every fold_right map]; intros G; constructor; [apply H; tauto|apply IHForall; tauto]. Qed.
Lemma neutral_tree a : names_ok neutral a -> neutral (ast_latex a).
Proof.
  induction a using tree_ind; cbn [names_ok ast_latex]; intros G.
  - apply Hnum.
  - apply neutral_vector. now apply neutral_list.
  - apply neutral_matrix. induction H as [|r m Hr H IH]; cbn [map]; [constructor|]. destruct G as [G1 G2]. constructor; [now apply neutral_list|now apply IH].
  - apply neutral_set. now apply neutral_list.
  - now apply neutral_pi.
  - destruct G as [G1 G2]. apply neutral_app; [exact G1|]. apply (neutral_wrap _ [OLeft]); [lit_moves| |lit_moves]. apply neutral_join; [ord|now apply neutral_list].
  - destruct G as [G1 G2]. apply neutral_op; auto.
  - destruct G as (G1 & G2 & G3 & G4). apply neutral_moves. eapply moves_app; [instantiate (1 := [OBrace]); lit_moves|].
    eapply moves_app; [apply neutral_frame; auto|]. eapply moves_app; [instantiate (1 := [OBrace]); lit_moves|].
    eapply moves_app; [apply neutral_frame; auto|]. eapply moves_app; [instantiate (1 := []); lit_moves|]. apply neutral_moves. repeat apply neutral_app; auto. ord.
  - destruct G as (G1 & G2 & G3). apply neutral_moves. eapply moves_app; [instantiate (1 := [OBrace]); lit_moves|].
    eapply moves_app; [apply neutral_frame; auto|]. eapply moves_app; [instantiate (1 := [OLeft]); lit_moves|].
    eapply moves_app; [apply neutral_frame; auto|]. eapply moves_app; [instantiate (1 := [OBrace]); lit_moves|].
    eapply moves_app; [apply neutral_frame; auto|]. eapply moves_app; [apply neutral_frame; ord|]. eapply moves_app; [apply neutral_frame; auto|lit_moves].
  - apply (moves_wrap _ [OEnv (lit "align"); OLeft]); [lit_moves| |lit_moves].
    induction H as [|e eqs He H IH]; cbn [map]; [apply neutral_frame, neutral_nil|]. destruct G as [[G1 G2] G3]. destruct He as [H1 H2].
    assert (M : moves (ast_latex (fst e) ++ lit "&=" ++ ast_latex (snd e)) [OEnv (lit "align"); OLeft] [OEnv (lit "align"); OLeft]).
    { apply moves_same; [apply neutral_frame; auto|]. apply moves_same; [lit_moves|apply neutral_frame; auto]. }
    specialize (IH G3). destruct eqs as [|e2 eqs]; [exact M|]. cbn [map join] in IH |- *.
    apply moves_same; [exact M|]. apply moves_same; [apply neutral_frame; lit_neutral|exact IH].
Qed.
Lemma neutral_value v : neutral (value_latex v).
Proof.
  destruct v as [m|l|x]; cbn [value_latex].
  - apply neutral_matrix. apply Forall_map. apply Forall_forall. intros r _. apply Forall_map. apply Forall_forall. intros x _. apply Hnum.
  - apply neutral_vector. apply Forall_map. apply Forall_forall. intros x _. apply Hnum.
  - apply Hnum.
Qed.
Lemma neutral_values vs : neutral (values_latex vs).
Proof.
  destruct vs as [|v [|w vs]]; [ord|apply neutral_value|]. unfold values_latex. apply neutral_set. apply Forall_map. apply Forall_forall. intros x _. apply neutral_value.
Qed.
Lemma neutral_values_at vs n : neutral n -> neutral (values_latex_at_var vs n false).
Proof.
  intros Hn. destruct vs as [|v vs].
  - change (neutral (pi_name n ++ lit ": No solutions")). apply neutral_app; [now apply neutral_pi|ord].
  - rewrite c45_at_variable by discriminate. apply neutral_app; [now apply (neutral_pi n)|]. apply neutral_app; [ord|]. apply neutral_app; [apply neutral_aligner|].
    apply neutral_app; [ord|apply neutral_values].
Qed.
Lemma line_values_at vs n al e : neutral n -> moves (values_latex_at_var vs n al) [OEnv e] [OEnv e].
Proof.
  intros Hn. destruct vs as [|v vs].
  - apply neutral_frame. change (neutral (pi_name n ++ lit ": No solutions")). apply neutral_app; [now apply neutral_pi|ord].
  - rewrite c45_at_variable by discriminate. apply moves_same; [apply neutral_frame; now apply (neutral_pi n)|]. apply moves_same; [apply neutral_frame; ord|].
    apply moves_same; [apply (line_aligner al)|]. apply moves_same; apply neutral_frame; [ord|apply neutral_values].
Qed.
Lemma line_at_fun a n inputs al e : neutral n -> Forall neutral inputs -> names_ok neutral a -> moves (ast_latex_at_fun a n inputs al) [OEnv e] [OEnv e].
Proof.
  intros H1 H2 H3. unfold ast_latex_at_fun. repeat apply moves_same; try apply line_aligner; apply neutral_frame; auto using neutral_tree; try ord. apply neutral_join; [ord|exact H2].
Qed.
Lemma neutral_at_fun a n inputs : neutral n -> Forall neutral inputs -> names_ok neutral a -> neutral (ast_latex_at_fun a n inputs false).
Proof.
  intros H1 H2 H3. unfold ast_latex_at_fun. repeat apply neutral_app; auto using neutral_aligner, neutral_tree; try ord. apply neutral_join; [ord|exact H2].
Qed.
(** The names of a step. *)
Definition step_names_ok (P : str -> Prop) (s : Step N) : Prop :=
  match s with
  | SCalc term _ save => names_ok P term /\ match save with Some n => P n | None => True end
  | SFun term inputs name => names_ok P term /\ Forall P inputs /\ P name
  end.
Lemma neutral_calc t r v : names_ok neutral t -> match v with Some n => neutral n | None => True end -> neutral (calc_latex t r v false).
Proof.
  intros H1 H2. unfold calc_latex. cbv zeta. apply neutral_app.
  - destruct v; [|apply neutral_nil]. repeat apply neutral_app; auto using neutral_aligner; ord.
  - replace (match v with Some _ => false | None => false end) with false by now destruct v.
    destruct (str_eqb _ _); [now apply neutral_tree|]. repeat apply neutral_app; auto using neutral_aligner, neutral_tree, neutral_values; ord.
Qed.
Lemma line_calc t r v al e : names_ok neutral t -> match v with Some n => neutral n | None => True end -> moves (calc_latex t r v al) [OEnv e] [OEnv e].
Proof.
  intros H1 H2. unfold calc_latex. cbv zeta. apply moves_same.
  - destruct v; [|apply neutral_frame, neutral_nil]. repeat apply moves_same; try apply line_aligner; apply neutral_frame; auto; ord.
  - destruct (str_eqb _ _); [now apply neutral_frame, neutral_tree|].
    repeat apply moves_same; try apply line_aligner; apply neutral_frame; auto using neutral_tree, neutral_values; ord.
Qed.
Lemma line_step s e : step_names_ok neutral s -> moves (step_latex s) [OEnv e] [OEnv e] /\ moves (step_latex_inline s) [OEnv e] [OEnv e].
Proof.
  destruct s as [t r v|t i n]; cbn [step_names_ok step_latex step_latex_inline]; intros H.
  - destruct H. split; now apply line_calc.
  - destruct H as (H1 & H2 & H3). split; now apply line_at_fun.
Qed.
Lemma ordinary_show_Z z : ordinary (show_Z z).
Proof.
  assert (G : forall s, all_digits s -> ordinary s).
  { intros s H. eapply Forall_impl; [|exact H]. intros c Hc. apply digit_bounds in Hc. cbn. intuition subst; cbn in *; lia. }
  unfold show_Z. destruct (Z.ltb_spec z 0).
  - constructor; [cbn; intuition discriminate|]. apply G. now apply show_digits; lia.
  - apply G. now apply show_digits.
Qed.
Lemma neutral_tag k : neutral (tag k).
Proof.
  unfold tag. apply neutral_moves. eapply moves_app; [instantiate (1 := [OBrace]); lit_moves|].
  eapply moves_app; [apply neutral_frame, neutral_ordinary, ordinary_show_Z|].
  eapply moves_app; [instantiate (1 := [OBrace]); lit_moves|].
  eapply moves_app; [apply neutral_frame, neutral_ordinary, ordinary_show_Z|].
  eapply moves_app; [instantiate (1 := []); lit_moves|]. apply neutral_moves. ord.
Qed.
Lemma line_step_tag s k e : step_names_ok neutral s -> moves (step_latex_with_tag s k) [OEnv e] [OEnv e].
Proof.
  intros H. replace (step_latex_with_tag s k) with (step_latex s ++ tag k) by now destruct s. apply moves_same; [now apply line_step|apply neutral_frame, neutral_tag].
Qed.
Lemma neutral_export h : Forall (step_names_ok neutral) h -> neutral (export_tex h).
Proof.
  intros H. unfold export_tex. apply (moves_wrap _ [OEnv (lit "align*"); OEnv (lit "document")]).
  - unfold tex_head, nl. change (?a :: ?l) with (a :: l). lit_moves.
  - apply moves_concat. apply Forall_map. apply Forall_forall. intros [i s] Hi m st Hm. apply in_combine_r in Hi.
    apply (line_step_tag s _ (lit "align*") (proj1 (Forall_forall _ _) H s Hi) m (OEnv (lit "document") :: st) Hm).
  - lit_moves.
Qed.
End Latex.

(** ** binary64 numbers *)
Section Floats.
Context {En : Env}.
Variable lm : Libm.
Local Instance NF : Num := F64 lm.
Lemma ordinary_app a b : ordinary a -> ordinary b -> ordinary (a ++ b).
Proof. intros. now apply Forall_app. Qed.
Lemma ordinary_digits s : all_digits s -> ordinary s.
Proof. intros H. eapply Forall_impl; [|exact H]. intros c Hc. apply digit_bounds in Hc. cbn. intuition subst; cbn in *; lia. Qed.
Ltac ord_lit := repeat constructor; cbn; intuition discriminate.
Lemma ordinary_show x : ordinary (show_f64 x).
Proof.
  assert (R : forall c p, (0 <= c)%Z -> ordinary (render_dec c p)).
  { intros c p H. destruct (render_dec_chars c p H) as [G _]. eapply Forall_impl; [|exact G]. intros y [Hy| ->]; [apply digit_bounds in Hy; cbn; intuition subst; cbn in *; lia|cbn; intuition discriminate]. }
  destruct x as [s|s| |s m e]; cbn [show_f64]; try (destruct s); try ord_lit;
    pose proof (shortest_pos m e) as H; destruct (shortest m e) as [c p]; cbn [fst] in H; [apply ordinary_app; [ord_lit|]|]; now apply R.
Qed.
Lemma ordinary_show_sci x : ordinary (show_sci_f64 x).
Proof.
  destruct x as [s|s| |s m e]; cbn [show_sci_f64]; try (destruct s); try ord_lit;
    pose proof (shortest_pos m e) as H; destruct (shortest m e) as [c p]; cbn [fst] in H; (apply ordinary_app; [ord_lit|]);
    unfold render_sci; destruct (show_digits c H) as (D0 & _); apply ordinary_digits in D0; destruct (show_nonneg c) as [|d [|d2 t]]; inversion D0; subst;
      repeat apply ordinary_app; try apply ordinary_show_Z; try ord_lit; repeat (first [assumption|constructor]); cbn; intuition discriminate.
Qed.
Lemma ordinary_before c s : ordinary s -> ordinary (before c s).
Proof. intros H. induction H; cbn [before]; [constructor|]. destruct (N.eqb x c); constructor; auto. Qed.
Lemma ordinary_after c s r : ordinary s -> after c s = Some r -> ordinary r.
Proof. intros H. induction H; cbn [after]; [discriminate|]. destruct (N.eqb x c); [intros E; assert (l = r) by congruence; now subst|auto]. Qed.
Lemma neutral_number x : neutral (@round_and_format NF En x true).
Proof.
  unfold round_and_format. cbv zeta. cbn [negb]. rewrite andb_false_r. cbn [andb]. match goal with |- neutral (if ?b then _ else _) => destruct b end.
  - change (@nshow_sci NF) with show_sci_f64. assert (S : ordinary (strip_plus (show_sci_f64 x))).
    { pose proof (ordinary_show_sci x) as H. destruct (show_sci_f64 x) as [|c s]; [exact H|]. cbn [strip_plus]. destruct (N.eqb c 43); [now inversion H|exact H]. }
    apply neutral_app; [apply neutral_ordinary, ordinary_before, S|]. apply (neutral_wrap _ [OBrace]); [lit_moves| |lit_moves].
    apply neutral_ordinary. destruct (after 101%N _) as [r|] eqn:E; [|constructor]. apply ordinary_before. eapply ordinary_after; eauto.
  - change (@nshow NF) with show_f64. pose proof (ordinary_show (@round_num NF (PREC - 2) x)) as H. apply neutral_ordinary.
    match goal with |- ordinary (if ?b then _ else _) => destruct b end; [|exact H]. destruct (show_f64 _); [exact H|now inversion H].
Qed.

(** ** C46 *)
Theorem c46_value (v : Value NF) : balanced (value_latex v).
Proof. apply neutral_balanced, neutral_value, neutral_number. Qed.
Theorem c46_values (vs : list (Value NF)) : balanced (values_latex vs).
Proof. apply neutral_balanced, neutral_values, neutral_number. Qed.
Theorem c46_variable (x : MVar NF) : neutral (var_name x) -> balanced (variable_latex x false) /\ forall al, balanced_line (variable_latex x al).
Proof.
  intros H. split; [apply neutral_balanced, neutral_values_at; [apply neutral_number|exact H]|].
  intros al. apply line_neutral. intros e. apply line_values_at; [apply neutral_number|exact H].
Qed.
Theorem c46_tree (a : AST NF) : names_ok neutral a -> balanced (ast_latex a).
Proof. intros H. apply neutral_balanced, neutral_tree; [apply neutral_number|exact H]. Qed.
Theorem c46_function (f : MFun NF) : neutral (fun_name f) -> Forall neutral (fun_inputs f) -> names_ok neutral (fun_ast f) ->
  balanced (function_latex f false) /\ forall al, balanced_line (function_latex f al).
Proof.
  intros H1 H2 H3. split; [apply neutral_balanced, neutral_at_fun; auto; apply neutral_number|].
  intros al. apply line_neutral. intros e. apply line_at_fun; auto. apply neutral_number.
Qed.
(** The lines of an export; the inline form of a calculation is balanced by
    itself, that of a function is not (Examples.inline_mark). *)
Theorem c46_step (s : Step NF) k : step_names_ok neutral s ->
  balanced_line (step_latex s) /\ balanced_line (step_latex_with_tag s k).
Proof.
  intros H. split; apply line_neutral; intros e; [now apply line_step, H; apply neutral_number|apply line_step_tag; auto; apply neutral_number].
Qed.
Theorem c46_inline t r save : step_names_ok neutral (@SCalc NF t r save) -> balanced (step_latex_inline (@SCalc NF t r save)).
Proof. intros [H1 H2]. apply neutral_balanced, neutral_calc; auto. apply neutral_number. Qed.
Theorem c46_export (h : list (Step NF)) : Forall (step_names_ok neutral) h -> balanced (export_tex h).
Proof. intros H. apply neutral_balanced, neutral_export; auto. apply neutral_number. Qed.
End Floats.

(** Names that satisfy the hypotheses: without backslash, curly bracket and &, a
    name of the symbol table, or such a name with a subscript in brackets. *)
Theorem c46_plain_name n : (forall c, In c n -> c <> 92%N /\ c <> 123%N /\ c <> 125%N /\ c <> 38%N) -> neutral n.
Proof. intros H. apply neutral_ordinary. apply Forall_forall. intros c Hc. apply H in Hc. cbn. intuition. Qed.
Theorem c46_greek_name n c : In (n, c) var_symbols -> neutral n.
Proof. intros H. apply neutral_symbols. change n with (fst (n, c)). now apply in_map. Qed.
Theorem c46_subscript_name n k : neutral n -> neutral k -> neutral (n ++ lit "_{" ++ k ++ lit "}").
Proof. intros H1 H2. apply neutral_app; [exact H1|]. apply (neutral_wrap _ [OBrace]); [lit_moves|exact H2|lit_moves]. Qed.

Module Examples.
Section Ex.
Context {En : Env}.
Variable lm : Libm.
Local Instance NF2 : Num := F64 lm.
(** A fraction, a function call, an integral and a system. *)
Definition tree (one : f64) : AST NF2 :=
  AOp ODiv (AFun (lit "f") [AVar (lit "\alpha"); AVector [AScalar (one : @T NF2); AVar (lit "x_{1}")]])
    (AOp OAdd (AInt (AVar (lit "x")) (lit "x") (AScalar (one : @T NF2)) (AVar (lit "pi")))
       (AEq [(AVar (lit "x"), AScalar (one : @T NF2))] [lit "x"])).
Example tree_names one : names_ok neutral (tree one).
Proof.
  assert (X : neutral (lit "x")) by ord. assert (X1 : neutral (lit "x_{1}")) by (apply (c46_subscript_name (lit "x") (lit "1")); ord).
  assert (A : neutral (lit "\alpha")) by (apply c46_greek_name with (c := 120572%N); left; reflexivity). assert (P : neutral (lit "pi")) by ord. assert (F : neutral (lit "f")) by ord.
  cbn [tree names_ok every fold_right fst snd]. repeat split; assumption.
Qed.
(** The hypothesis is needed: a name with an unmatched bracket. *)
Example bad_name : ~ balanced (ast_latex (AVar (lit "x}") : AST NF2)).
Proof. intros (m & H & _). vm_compute in H. discriminate H. Qed.
(** Findings.  [+-] is printed as \pm without a following blank, so that it
    runs into a name; the inline form of a function step contains an alignment
    mark; the letter chi has no symbol, and xi is listed twice. *)
Example pm_runs_on : ast_latex (AOp OAddSub (AVar (lit "a")) (AVar (lit "b")) : AST NF2) = lit "a\pmb".
Proof. reflexivity. Qed.
Example inline_mark : step_latex_inline (SFun (AVar (lit "x") : AST NF2) [lit "x"] (lit "f")) = lit "f(x) &= x" /\
  ~ balanced (lit "f(x) &= x").
Proof. split; [reflexivity|]. intros (m & H & _). vm_compute in H. discriminate H. Qed.
Example no_chi : ~ In (lit "\chi") (map fst var_symbols).
Proof. intros H. assert (E : existsb (str_eqb (lit "\chi")) (map fst var_symbols) = true) by (apply existsb_exists; exists (lit "\chi"); split; [exact H|now apply str_eqb_eq]). vm_compute in E. discriminate. Qed.
End Ex.
End Examples.
