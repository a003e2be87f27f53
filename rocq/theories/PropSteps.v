(** * PropSteps: C61 - what a recorded step shows; C62 - Greek names. *)
From Coq Require Import List NArith ZArith Bool String Arith Lia SpecFloat.
From Verif Require Import Base BaseFacts F64 Num Types Print LatexSpec PropPrint PropLatex Toy.
Import ListNotations.
Local Open Scope string_scope.
Local Open Scope list_scope.

(** ** C61 *)
(** A line of equations: the parts with an equals sign between each two; the
    first one carries the alignment mark, if there is one. *)
Fixpoint chain (parts : list str) : str :=
  match parts with
  | [] => []
  | p :: rest => match rest with [] => p | _ => p ++ lit " = " ++ chain rest end
  end.
Definition chain_marked (parts : list str) : str :=
  match parts with
  | [] => []
  | p :: rest => match rest with [] => p | _ => p ++ lit " &= " ++ chain rest end
  end.
Section Steps.
Context {N : Num} {En : Env}.
(** The parts of a calculation: the name it is saved under, the expression,
    the result - left out if it reads the same as the expression. *)
Definition parts_of (t : AST N) (r : list (Value N)) (save : option str) : list str :=
  (match save with Some n => [n] | None => [] end) ++ [ast_latex t] ++
  (if str_eqb (ast_latex t) (values_latex r) then [] else [values_latex r]).
Theorem c61_calculation t r save :
  step_latex (SCalc t r save) = chain_marked (parts_of t r save) /\
  step_latex_inline (SCalc t r save) = chain (parts_of t r save).
Proof.
  unfold step_latex, step_latex_inline, calc_latex, parts_of. cbv zeta.
  destruct save as [n|]; destruct (str_eqb (ast_latex t) (values_latex r)); cbn [app chain chain_marked aligner];
    rewrite ?app_nil_r; repeat rewrite <- app_assoc; split; reflexivity.
Qed.
Theorem c61_function t inputs n :
  step_latex (SFun t inputs n) = chain_marked [n ++ lit "(" ++ join (lit ", ") inputs ++ lit ")"; ast_latex t] /\
  step_latex_inline (SFun t inputs n) = chain_marked [n ++ lit "(" ++ join (lit ", ") inputs ++ lit ")"; ast_latex t].
Proof.
  unfold step_latex, step_latex_inline, ast_latex_at_fun. cbn [chain chain_marked aligner]. repeat rewrite <- app_assoc. split; reflexivity.
Qed.
(** A numbered line is the line with the tag and the label. *)
Theorem c61_tagged (s : Step N) k : (0 <= k)%Z -> exists t, decimal_text t (Z.to_nat k) /\
  step_latex_with_tag s k = step_latex s ++ lit " \tag{" ++ t ++ lit "}\label{eq:" ++ t ++ lit "} \\ \\ " ++ [10%N].
Proof.
  intros Hk. exists (show_nonneg k). split.
  - unfold decimal_text. rewrite Z2Nat.id by exact Hk. now apply DecimalText.show_digits.
  - assert (E : show_Z k = show_nonneg k) by (unfold show_Z; now rewrite (proj2 (Z.ltb_ge _ _)) by lia).
    destruct s; cbn [step_latex_with_tag step_latex]; unfold tag; rewrite E; reflexivity.
Qed.
End Steps.
(** A line has exactly one alignment mark outside inner environments, unless
    there is only one thing to show. *)
Section Marks.
Context {En : Env}.
Variable lm : Libm.
Local Instance NS : Num := F64 lm.
Lemma neutral_chain l : Forall neutral l -> neutral (chain l).
Proof.
  intros H. induction H as [|x l Hx H IH]; [apply neutral_nil|]. cbn [chain]. destruct l; [exact Hx|].
  apply neutral_app; [exact Hx|]. apply neutral_app; [ord|exact IH].
Qed.
Theorem c61_one_mark (s : Step NS) : step_names_ok neutral s ->
  (exists left right, step_latex s = left ++ [38%N] ++ right /\ neutral left /\ neutral right) \/
  (neutral (step_latex s) /\ exists t r, s = @SCalc NS t r None /\ ast_latex t = values_latex r).
Proof.
  assert (G : forall p q rest, neutral p -> Forall neutral (q :: rest) ->
    exists left right, chain_marked (p :: q :: rest) = left ++ [38%N] ++ right /\ neutral left /\ neutral right).
  { intros p q rest Hp Hr. exists (p ++ lit " "), (lit "= " ++ chain (q :: rest)). split.
    - cbn [chain_marked]. rewrite <- app_assoc. reflexivity.
    - split; [apply neutral_app; [exact Hp|ord]|]. apply neutral_app; [ord|now apply neutral_chain]. }
  destruct s as [t r save|t i n]; cbn [step_names_ok]; intros H.
  - destruct H as [H1 H2]. rewrite (proj1 (c61_calculation t r save)). unfold parts_of.
    assert (Ht : neutral (ast_latex t)) by (apply neutral_tree; [apply neutral_number|exact H1]).
    assert (Hv : neutral (values_latex r)) by (apply neutral_values, neutral_number).
    destruct save as [n|]; destruct (str_eqb (ast_latex t) (values_latex r)) eqn:E; cbn [app].
    + left. apply G; auto.
    + left. apply G; auto.
    + right. apply str_eqb_eq in E. split; [exact Ht|]. exists t, r. auto.
    + left. apply G; auto.
  - destruct H as (H1 & H2 & H3). rewrite (proj1 (c61_function t i n)). left. apply G.
    + repeat apply neutral_app; auto; try ord. apply neutral_join; [ord|exact H2].
    + constructor; [|constructor]. apply neutral_tree; [apply neutral_number|exact H1].
Qed.
(** Inside a neutral text no alignment mark is at the outermost level. *)
Theorem c61_no_mark left right : ~ neutral ([38%N] ++ right) /\ (neutral left -> ~ neutral (left ++ [38%N] ++ right)).
Proof.
  split.
  - intros H. destruct (H Plain [] eq_refl) as (m & E & _). discriminate E.
  - intros Hl H. destruct (Hl Plain [] eq_refl) as (m & E & C). destruct (H Plain [] eq_refl) as (m' & E' & _).
    rewrite run_app, E in E'. cbn [run app] in E'. rewrite (calm_step m [] 38%N C eq_refl) in E'. discriminate E'.
Qed.
End Marks.

(** ** C62 *)
(** The Greek alphabet in Unicode's order, and the mathematical italic letters:
    small ones from U+1D6FC, capital ones from U+1D6E2; in both blocks one more
    character (final sigma, capital theta symbol) stands before sigma. *)
Definition alphabet : list (str * str) :=
  [(lit "alpha", lit "Alpha"); (lit "beta", lit "Beta"); (lit "gamma", lit "Gamma"); (lit "delta", lit "Delta");
   (lit "epsilon", lit "Epsilon"); (lit "zeta", lit "Zeta"); (lit "eta", lit "Eta"); (lit "theta", lit "Theta");
   (lit "iota", lit "Iota"); (lit "kappa", lit "Kappa"); (lit "lambda", lit "Lambda"); (lit "mu", lit "Mu");
   (lit "nu", lit "Nu"); (lit "xi", lit "Xi"); (lit "omicron", lit "Omicron"); (lit "pi", lit "Pi");
   (lit "rho", lit "Rho"); (lit "sigma", lit "Sigma"); (lit "tau", lit "Tau"); (lit "upsilon", lit "Upsilon");
   (lit "phi", lit "Phi"); (lit "chi", lit "Chi"); (lit "psi", lit "Psi"); (lit "omega", lit "Omega")].
Definition italic (first : N) (i : nat) : char := (first + N.of_nat i + (if Nat.leb 17 i then 1 else 0))%N.
Definition italic_small : nat -> char := italic 0x1D6FC%N.
Definition italic_capital : nat -> char := italic 0x1D6E2%N.
Section Greek.
Context {N : Num} {En : Env}.
(** The name [n] is shown as [t], whatever value it has (C43 says how a value
    is laid out after a name). *)
Definition shown_as (n t : str) : Prop := forall E (v : Value N), @as_unicode_at_var N En E v n = pretty_print (Some t) v.
Lemma shown_name n : shown_as n (unicode_name n).
Proof. intros E v. reflexivity. Qed.
Lemma shown_eq n t : unicode_name n = t -> shown_as n t.
Proof. intros <-. apply shown_name. Qed.
Definition str_in (s : str) (l : list str) : bool := existsb (str_eqb s) l.
Lemma str_in_spec s l : str_in s l = false -> ~ In s l.
Proof.
  intros H I. assert (str_in s l = true); [|congruence]. apply existsb_exists. exists s. split; [exact I|apply str_eqb_refl].
Qed.
Theorem c62_letters i small capital : nth_error alphabet i = Some (small, capital) ->
  (~ In small [lit "epsilon"; lit "pi"; lit "chi"] -> shown_as (lit "\" ++ small) [italic_small i]) /\
  (~ In capital [lit "Gamma"; lit "Chi"] -> shown_as (lit "\" ++ capital) [italic_capital i]).
Proof.
  intros H.
  assert (A : forallb (fun i => match nth_error alphabet i with
    | Some (s, c) => (str_in s [lit "epsilon"; lit "pi"; lit "chi"] || str_eqb (unicode_name (lit "\" ++ s)) [italic_small i]) &&
                     (str_in c [lit "Gamma"; lit "Chi"] || str_eqb (unicode_name (lit "\" ++ c)) [italic_capital i])
    | None => true end) (seq 0 24) = true) by (vm_compute; reflexivity).
  rewrite forallb_forall in A. assert (I : In i (seq 0 24)).
  { apply in_seq. assert (i < List.length alphabet) by (apply nth_error_Some; congruence). cbn in H0. lia. }
  apply A in I. rewrite H in I. apply andb_true_iff in I as [I1 I2]. clear A H.
  assert (R : forall s l, ~ In s l -> str_in s l = false).
  { intros s l Hs. destruct (str_in s l) eqn:E; [|reflexivity]. exfalso. apply existsb_exists in E as (x & Hx & E). apply str_eqb_eq in E. now subst. }
  split; intros Hn; apply R in Hn; rewrite Hn in *; cbn [orb] in *; apply shown_eq; now apply str_eqb_eq.
Qed.
(** The constant pi is named without backslash. *)
Theorem c62_pi : shown_as (lit "pi") [italic_small 15].
Proof. now apply shown_eq. Qed.
(** Every other name is shown as it is. *)
Theorem c62_others n : n <> lit "pi" -> (forall s c, In (s, c) alphabet -> n <> lit "\" ++ s /\ n <> lit "\" ++ c) -> shown_as n n.
Proof.
  intros H1 H2. apply shown_eq. unfold unicode_name. destruct (find _ _) as [p|] eqn:Ef; [|reflexivity]. exfalso.
  apply find_some in Ef as [F1 F2]. apply str_eqb_eq in F2.
  assert (A : forallb (fun q => str_eqb (fst q) (lit "pi") || existsb (fun l => str_eqb (fst q) (lit "\" ++ fst l) || str_eqb (fst q) (lit "\" ++ snd l)) alphabet) var_symbols = true)
    by (vm_compute; reflexivity).
  rewrite forallb_forall in A. apply A in F1. rewrite <- F2 in F1. apply orb_true_iff in F1 as [F1|F1].
  - apply str_eqb_eq in F1. contradiction.
  - apply existsb_exists in F1 as ([s c] & I & F1). destruct (H2 s c I) as [G1 G2]. apply orb_true_iff in F1 as [F1|F1]; apply str_eqb_eq in F1; contradiction.
Qed.
Lemma distinct n m t : Forall (fun c => (c < 128)%N) n -> Forall (fun c => (c < 128)%N) m ->
  t = unicode_name n -> t = unicode_name m -> n = m.
Proof.
  intros Hn Hm E1 E2. unfold unicode_name in *.
  assert (A : forallb (fun p => forallb (fun q => negb (N.eqb (snd p) (snd q)) || str_eqb (fst p) (fst q)) var_symbols) var_symbols = true) by (vm_compute; reflexivity).
  assert (B : forallb (fun p => negb (N.ltb (snd p) 128)) var_symbols = true) by (vm_compute; reflexivity).
  rewrite forallb_forall in A, B.
  destruct (find (fun p => str_eqb n (fst p)) var_symbols) as [p|] eqn:Ep; destruct (find (fun p => str_eqb m (fst p)) var_symbols) as [q|] eqn:Eq.
  - apply find_some in Ep as [P1 P2], Eq as [Q1 Q2]. apply str_eqb_eq in P2, Q2. apply A in P1. rewrite forallb_forall in P1. apply P1 in Q1.
    assert (E : snd p = snd q) by congruence. unfold char in *. rewrite (proj2 (N.eqb_eq _ _) E) in Q1. cbn [negb orb] in Q1. apply str_eqb_eq in Q1. congruence.
  - apply find_some in Ep as [P1 _]. apply B in P1. exfalso. assert (E : m = [snd p]) by congruence. rewrite E in Hm. inversion Hm; subst.
    apply negb_true_iff in P1. apply N.ltb_ge in P1. unfold char in *. lia.
  - apply find_some in Eq as [Q1 _]. apply B in Q1. exfalso. assert (E : n = [snd q]) by congruence. rewrite E in Hn. inversion Hn; subst.
    apply negb_true_iff in Q1. apply N.ltb_ge in Q1. unfold char in *. lia.
  - congruence.
Qed.
(** Different ASCII names are shown differently. *)
Theorem c62_distinct E n m (x : T) : Forall (fun c => (c < 128)%N) n -> Forall (fun c => (c < 128)%N) m ->
  @as_unicode_at_var N En E (Scalar x) n = as_unicode_at_var (Scalar x) m -> n = m.
Proof.
  intros Hn Hm H. apply (distinct n m (unicode_name n) Hn Hm eq_refl). unfold as_unicode_at_var, pretty_print, prefix in H.
  assert (G : forall a b : str, @Ok E str a = Ok b -> a = b) by congruence. apply G in H. now apply app_inv_tail, app_inv_tail in H.
Qed.
(** Findings: two letters have the wrong style (bold), one name of pi and
    both of chi are not converted; the character of chi is in the table under
    the name of xi, where it is never found. *)
Theorem c62_exceptions : shown_as (lit "\epsilon") [0x1D73A%N] /\ shown_as (lit "\Gamma") [0x1D6AA%N] /\
  shown_as (lit "\pi") (lit "\pi") /\ shown_as (lit "\chi") (lit "\chi") /\ shown_as (lit "\Chi") (lit "\Chi").
Proof. repeat split. Qed.
End Greek.

Module Examples.
Section Ex.
Context {En : Env}.
Variable lm : Libm.
Local Instance NG : Num := F64 lm.
Example alpha : @shown_as NG En (lit "\alpha") [0x1D6FC%N].
Proof. apply (proj1 (c62_letters 0 (lit "alpha") (lit "Alpha") eq_refl)). cbn. intuition discriminate. Qed.
Example others : @shown_as NG En (lit "speed") (lit "speed").
Proof.
  apply c62_others; [discriminate|]. intros s c _. split; discriminate.
Qed.
Example saved t r : step_names_ok neutral (@SCalc NG t r (Some (lit "x"))) <-> names_ok neutral t.
Proof. cbn [step_names_ok]. split; [tauto|]. intros H. split; [exact H|ord]. Qed.
Example line : step_latex (@SCalc NG (AVar (lit "y")) [] (Some (lit "x"))) = lit "x &= y = No solutions".
Proof. reflexivity. Qed.
End Ex.
End Examples.
