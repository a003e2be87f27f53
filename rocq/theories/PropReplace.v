(** * C66: equal parts can be exchanged, a variable stands for its values, a
    call stands for the body of the function *)
From Coq Require Import List NArith ZArith Bool Lia Arith String.
From Verif Require Import Base BaseFacts F64 Num Types Maths Helpers Parser Eval EvalFuel EvalRel EvalLim SpecEval EvalProofs ContextProofs Toy PropEval PropLatex Parens ReplaceSpec Replace.
Import ListNotations.

Section Props.
Context {N : Num} {En : Env}.
Notation V := (Value N).

(** The same outcomes, and one never returns if the other never does. *)
Definition same_behaviour (a : AST N) (c : Ctx N) (b : AST N) (d : Ctx N) : Prop :=
  (forall r, outcome a c r <-> outcome b d r) /\ (diverges a c <-> diverges b d).
Lemma behaviour_intro a c b d : (forall r, outcome a c r <-> outcome b d r) -> same_behaviour a c b d.
Proof.
  intros H. split; [exact H|].
  assert (G : forall (a b : AST N) (c d : Ctx N), (forall r, outcome a c r <-> outcome b d r) -> diverges a c -> diverges b d).
  { clear. intros a b c d H D f. destruct (eval f b d) as [x|e| |] eqn:E; try reflexivity;
      (assert (O : outcome b d (eval f b d)) by (rewrite E; eapply outcome_intro; [exact E|discriminate]);
       apply H in O; destruct O as [O1 [f0 O2]]; specialize (O2 f0 (le_n _)); rewrite (D f0) in O2; congruence). }
  split; apply G; auto. intros r. symmetry. apply H.
Qed.

(** ** Symmetry *)
Lemma rp_flip (H : AST N -> AST N -> Prop) B : forall a b, rp H B a b -> rp (fun x y => H y x) B b a.
Proof.
  assert (L : forall l l' : list (AST N), Forall (fun a => forall b, rp H B a b -> rp (fun x y => H y x) B b a) l -> Forall2 (rp H B) l l' -> Forall2 (rp (fun x y => H y x) B) l' l).
  { intros l l' F H2. induction H2; inversion F; subst; constructor; auto. }
  induction a using tree_ind; intros b Hab; inversion Hab as [p q Hpq| |a' b' Hrc]; subst; try apply rp_same; try (now apply rp_here);
    inversion Hrc; subst; apply rp_inside; constructor; auto.
  - clear - L H0 H2. revert m' H2. induction H0 as [|r m Hr Hm IH]; intros m' H2; inversion H2; subst; constructor; auto.
  - match goal with G : _ \/ _ |- _ => destruct G as [<-|[? ?]]; [now left|right; auto] end.
  - match goal with G : _ \/ _ |- _ => destruct G as [<-|[? ?]]; [now left|right; auto] end.
  - match goal with G : _ \/ _ |- _ => destruct G as [<-|[G1 G2]]; [now left|right; split; [exact G1|]] end.
    clear - H0 G2. revert H0. induction G2 as [|s s' qs qs' [? ?] G2 IH]; intros F; inversion F as [|? ? [? ?] ?]; subst; constructor; auto.
Qed.
Lemma rp_ctx_flip (H : AST N -> AST N -> Prop) B c d : rp_ctx H B c d -> rp_ctx (fun x y => H y x) B d c.
Proof.
  intros [H1 H2]. split; [congruence|]. induction H2 as [|f g fs gs (G1 & G2 & G3) H2 IH]; constructor; auto.
  repeat split; try congruence. now apply rp_flip.
Qed.

(** ** Equal parts *)

(** Parts with the same outcomes everywhere can be exchanged, in the
    expression and in the functions of the context. *)
Theorem c66_equal_parts (H : AST N -> AST N -> Prop) :
  (forall p q, H p q -> forall inside c r, outcome_in inside p c r <-> outcome_in inside q c r) ->
  forall a b c d, rp H anywhere a b -> rp_ctx H anywhere c d -> same_behaviour a c b d.
Proof.
  intros HH.
  assert (G : forall (H : AST N -> AST N -> Prop), (forall p q, H p q -> forall inside c r, outcome_in inside p c r -> outcome_in inside q c r) ->
    forall a b c d r, rp H anywhere a b -> rp_ctx H anywhere c d -> outcome a c r -> outcome b d r).
  { clear. intros H HH a b c d r Hab [Hc1 Hc2] O.
    apply (replace_outcome H anywhere true (fun _ => True)) with (a := a) (c := c); auto; try (intros; exact I).
    - intros; split; auto; intros; exact I.
    - intros; eapply HH; eauto.
    - split; auto. }
  intros a b c d Hab Hc. apply behaviour_intro. intros r. split.
  - apply (G H); auto. intros p q Hpq inside c0 r0. apply (proj1 (HH p q Hpq inside c0 r0)).
  - apply (G (fun x y => H y x)); auto using rp_flip, rp_ctx_flip. intros p q Hpq inside c0 r0. apply (proj2 (HH q p Hpq inside c0 r0)).
Qed.

(** ** Values for variables *)
Lemma literal_in l (c : Ctx N) v r : outcome_in l (ast_from_value v) c r <-> r = Ok [v].
Proof.
  split.
  - intros [_ [f1 H1]]. destruct (from_value_outcome l c v) as [_ [f2 H2]]. specialize (H1 (max f1 f2) ltac:(lia)). specialize (H2 (max f1 f2) ltac:(lia)). congruence.
  - intros ->. apply from_value_outcome.
Qed.
Lemma written_in l (c : Ctx N) vs r : outcome_in l (written vs) c r <-> r = Ok vs.
Proof.
  assert (O : outcome_in l (written vs) c (Ok vs)).
  { replace vs with (List.concat (map (fun v => [v]) vs)) at 2.
    - apply list_outcome. induction vs as [|v vs IH]; constructor; auto. apply from_value_outcome.
    - induction vs; cbn; congruence. }
  split.
  - intros [_ [f1 H1]]. destruct O as [_ [f2 H2]]. specialize (H1 (max f1 f2) ltac:(lia)). specialize (H2 (max f1 f2) ltac:(lia)). congruence.
  - now intros ->.
Qed.
Lemma var_in l (c : Ctx N) n v r : lookup_var c n = Some v -> outcome_in l (AVar n) c r <-> r = Ok (var_values v).
Proof.
  intros E. pose proof (var_outcome l c n) as O. rewrite E in O. split.
  - intros [_ [f1 H1]]. destruct O as [_ [f2 H2]]. specialize (H1 (max f1 f2) ltac:(lia)). specialize (H2 (max f1 f2) ltac:(lia)). congruence.
  - now intros ->.
Qed.

(** Binding other names does not change the value of [n]. *)
Definition shows (n : str) (vs : list V) (c : Ctx N) : Prop := exists w, lookup_var c n = Some w /\ var_values w = vs.
Lemma shows_add n vs c v : var_name v <> n -> shows n vs c -> shows n vs (add_var c v).
Proof. intros Hv (w & E & Hw). exists w. split; [|exact Hw]. rewrite lookup_named in *. rewrite named_add_var. now rewrite (proj2 (str_eqb_neq _ _) Hv). Qed.
Lemma shows_remove n vs c m : m <> n -> shows n vs c -> shows n vs (remove_var c m).
Proof. intros Hv (w & E & Hw). exists w. split; [|exact Hw]. rewrite lookup_named in *. rewrite named_remove_var. rewrite (proj2 (str_eqb_neq n m)); auto. Qed.
Lemma shows_app n vs c l : shows n vs c -> shows n vs (mkCtx (vars c ++ l) (funs c)).
Proof. intros (w & E & Hw). exists w. split; [|exact Hw]. rewrite lookup_named in *. cbn [vars]. rewrite named_app. destruct (named n (vars c)); [discriminate|exact E]. Qed.
Lemma shows_first n vs c m : m <> n -> shows n vs c -> shows n vs (mkCtx (remove_first m (vars c)) (funs c)).
Proof. intros Hv (w & E & Hw). exists w. split; [|exact Hw]. rewrite lookup_named in *. cbn [vars]. rewrite named_remove_first. rewrite (proj2 (str_eqb_neq n m)); auto. Qed.

(** A variable can be replaced by its values, wherever it is not bound. *)
Theorem c66_variable x (c : Ctx N) v a b :
  lookup_var c x = Some v ->
  rp (exchange (AVar x) (written (var_values v))) (fun n => n <> x) a b ->
  same_behaviour a c b c.
Proof.
  intros E Hab.
  assert (G : forall (H : AST N -> AST N -> Prop), (forall p q c l r, H p q -> shows x (var_values v) c -> outcome_in l p c r -> outcome_in l q c r) ->
    forall a b r, rp H (fun n => n <> x) a b -> outcome a c r -> outcome b c r).
  { clear - E. intros H HH a b r Hab. 
    apply (replace_outcome H (fun n => n <> x) false (shows x (var_values v))) with (l := @nil char); auto using shows_add, shows_remove, shows_app, shows_first.
    - discriminate.
    - split; [reflexivity|]. split; [reflexivity|]. exists v. auto. }
  apply behaviour_intro. intros r. split.
  - apply (G (exchange (AVar x) (written (var_values v)))); auto. intros p q d l r0 [-> ->] (w & Ew & Hw) O. apply (var_in l d x w r0 Ew) in O. apply written_in. congruence.
  - apply (G (fun p q => exchange (AVar x) (written (var_values v)) q p)); auto using rp_flip. intros p q d l r0 [-> ->] (w & Ew & Hw) O. apply written_in in O. apply (var_in l d x w r0 Ew). congruence.
Qed.

(** ** Filling in *)
Definition filled (s : list (str * V)) (p q : AST N) : Prop := exists n v, value_for s n = Some v /\ p = AVar n /\ q = ast_from_value v.
Lemma fill_rp s a : (forall n, In n (bound a) -> value_for s n = None) -> rp (filled s) (fun n => value_for s n = None) a (fill s a).
Proof.
  assert (L : forall l, Forall (fun a => (forall n, In n (bound a) -> value_for s n = None) -> rp (filled s) (fun n => value_for s n = None) a (fill s a)) l ->
    (forall n, In n (flat_map bound l) -> value_for s n = None) -> Forall2 (rp (filled s) (fun n => value_for s n = None)) l (map (fill s) l)).
  { intros l F. induction F as [|a0 l Ha F IH]; intros Hb; cbn [map]; constructor.
    - apply Ha. intros n Hn. apply Hb. cbn. apply in_app_iff. now left.
    - apply IH. intros n Hn. apply Hb. cbn. apply in_app_iff. now right. }
  induction a using tree_ind; intros Hb; cbn [fill]; cbn [bound] in Hb.
  - apply rp_same.
  - apply rp_inside, rc_vector. auto.
  - apply rp_inside, rc_matrix. induction H as [|r m Hr Hm IH]; cbn [map]; constructor.
    + apply L; auto. intros n Hn. apply Hb. cbn. apply in_app_iff. now left.
    + apply IH. intros n Hn. apply Hb. cbn. apply in_app_iff. now right.
  - apply rp_inside, rc_list. auto.
  - destruct (value_for s n) as [v|] eqn:E; [|apply rp_same]. apply rp_here. exists n, v. auto.
  - apply rp_inside, rc_fun. auto.
  - apply rp_inside, rc_op; [apply IHa1|apply IHa2]; intros n Hn; apply Hb; apply in_app_iff; auto.
  - apply rp_inside, rc_int; [right; split; [apply Hb; now left|apply IHa1]|apply IHa2|apply IHa3]; intros n Hn; apply Hb; right; rewrite !in_app_iff; auto.
  - apply rp_inside, rc_der; [right; split; [apply Hb; now left|apply IHa1]|apply IHa2]; intros n Hn; apply Hb; right; rewrite !in_app_iff; auto.
  - apply rp_inside, rc_eq. right. split; [intros n Hn; apply Hb, in_app_iff; now left|].
    assert (Hb' : forall n, In n (flat_map (fun e => bound (fst e) ++ bound (snd e)) eqs) -> value_for s n = None) by (intros n Hn; apply Hb, in_app_iff; now right).
    clear Hb. induction H as [|e eqs [H1 H2] H IH]; cbn [map]; constructor.
    + cbn [fst snd]. split; [apply H1|apply H2]; intros n Hn; apply Hb'; cbn; rewrite !in_app_iff; auto.
    + apply IH. intros n Hn. apply Hb'. cbn. rewrite !in_app_iff. auto.
Qed.
Lemma fill_outcome s l (a : AST N) c r :
  (forall n v, value_for s n = Some v -> shows n [v] c) ->
  (forall n, In n (bound a) -> value_for s n = None) ->
  outcome_in l a c r <-> outcome_in l (fill s a) c r.
Proof.
  intros Hs Hb.
  pose (C := fun c : Ctx N => forall n v, value_for s n = Some v -> shows n [v] c).
  assert (G : forall (H : AST N -> AST N -> Prop), (forall p q c l r, H p q -> C c -> outcome_in l p c r -> outcome_in l q c r) ->
    forall a b r, rp H (fun n => value_for s n = None) a b -> outcome_in l a c r -> outcome_in l b c r).
  { intros H HH a0 b0 r0 Hab.
    apply (replace_outcome H (fun n => value_for s n = None) false C); auto; unfold C.
    - discriminate.
    - intros c0 v Hv Hc n w Hn. apply shows_add; [congruence|auto].
    - intros c0 m Hv Hc n w Hn. apply shows_remove; [congruence|auto].
    - intros c0 l0 Hv Hc n w Hn. apply shows_app; auto.
    - intros c0 m Hv Hc n w Hn. apply shows_first; [congruence|auto].
    - split; [reflexivity|]. split; [reflexivity|]. exact Hs. }
  pose proof (fill_rp s a Hb) as Hab. split.
  - apply (G (filled s)); auto. intros p q d l0 r0 (n & v & Hv & -> & ->) Hc O. destruct (Hc n v Hv) as (w & Ew & Hw). apply (var_in l0 d n w r0 Ew) in O. apply literal_in. congruence.
  - apply (G (fun p q => filled s q p)); auto using rp_flip. intros p q d l0 r0 (n & v & Hv & -> & ->) Hc O. destruct (Hc n v Hv) as (w & Ew & Hw). apply (var_in l0 d n w r0 Ew). apply literal_in in O. congruence.
Qed.

(** The values of single-valued variables can be filled in for them. *)
Theorem c66_fill s (a : AST N) c :
  (forall n v, value_for s n = Some v -> exists w, lookup_var c n = Some w /\ var_values w = [v]) ->
  (forall n, In n (bound a) -> value_for s n = None) ->
  same_behaviour a c (fill s a) c.
Proof. intros Hs Hb. apply behaviour_intro. intros r. now apply (fill_outcome s [] a c r). Qed.

(** ** Calls *)

Lemma calls_literal (v : V) : calls (ast_from_value v) = [].
Proof.
  destruct v as [m|v|s]; cbn; [|induction v; cbn; auto|reflexivity].
  induction m as [|r m IH]; cbn; [reflexivity|]. rewrite IH, app_nil_r. induction r; cbn; auto.
Qed.
Lemma mentions_literal (v : V) : mentions (ast_from_value v) = [].
Proof.
  destruct v as [m|v|s]; cbn; [|induction v; cbn; auto|reflexivity].
  induction m as [|r m IH]; cbn; [reflexivity|]. rewrite IH, app_nil_r. induction r; cbn; auto.
Qed.
Lemma flat_nil {A B} (f : A -> list B) l x : flat_map f l = [] -> In x l -> f x = [].
Proof. induction l as [|y l IH]; cbn; [easy|]. intros H [<-|Hx]; apply app_eq_nil in H as [H1 H2]; auto. Qed.

(** An expression without calls does not see the functions. *)
Lemma calls_free_rle f : forall (a : AST N) c d l l', calls a = [] -> vars c = vars d -> rle (eval_rec f a c l) (eval_rec f a d l').
Proof.
  induction f as [|f IH]; intros a c d l l' Ha Hc; [apply rle_fuel|].
  assert (HQ : forall x y (c d : Ctx N), vars c = vars d -> rle (eval_rec f (quotient_ast x y) c []) (eval_rec f (quotient_ast x y) d [])).
  { intros; apply IH; auto. unfold quotient_ast. cbn [calls]. now rewrite !calls_literal. }
  destruct a as [x|v|m|v|n|n args|op a b|e x a b|e x a|eqs xs]; cbn [eval_rec]; cbn [calls] in Ha.
  - apply rle_refl.
  - apply rle_bind; [|intros; apply rle_refl]. apply rle_mapM_in. intros i Hi. apply rle_bind; [|intros; apply rle_refl]. apply IH; auto. now apply (flat_nil calls v).
  - apply rle_bind; [|intros; apply rle_refl]. apply rle_mapM_in. intros r Hr. apply rle_mapM_in. intros i Hi. apply rle_bind; [|intros; apply rle_refl]. apply IH; auto.
    apply (flat_nil calls r); auto. now apply (flat_nil (fun r => flat_map calls r) m).
  - apply rle_concatM_in. intros i Hi. apply IH; auto. now apply (flat_nil calls v).
  - unfold lookup_var. rewrite Hc. apply rle_refl.
  - discriminate.
  - apply app_eq_nil in Ha as [H1 H2]. apply rle_bind; [now apply IH|]. intros lv. apply rle_bind; [now apply IH|]. intros; apply rle_refl.
  - apply app_eq_nil in Ha as [H1 H2]. apply app_eq_nil in H2 as [H2 H3]. apply rle_bind; [now apply IH|]. intros lv. apply rle_bind; [now apply IH|]. intros rv.
    apply rle_concatM. intros i. apply rle_concatM. intros j.
    apply (integral_rel _ _ (fun a b => a = b /\ calls a = []) (fun c d => vars c = vars d) (fun _ => True)); auto.
    + intros ? ? ? ? [<- ?] ?. now apply IH.
    + intros ? ? ? _ G. cbn [vars]. now rewrite G.
    + intros ? ? ? _ G. cbn [vars]. now rewrite G.
  - apply app_eq_nil in Ha as [H1 H2]. apply rle_bind; [now apply IH|]. intros lv.
    apply rle_concatM. intros i.
    apply (derivative_rel _ _ (fun a b => a = b /\ calls a = []) (fun c d => vars c = vars d) (fun _ => True)); auto.
    + intros ? ? ? ? [<- ?] ?. now apply IH.
    + intros ? ? ? _ G. cbn. now rewrite G.
    + intros ? ? ? _ G. cbn. now rewrite G.
  - apply (solve_rel _ _ (fun a b => a = b /\ calls a = []) (fun c d => vars c = vars d) (fun _ => True)); auto.
    + intros ? ? ? ? [<- ?] ?. now apply IH.
    + intros ? ? ? _ G. cbn. now rewrite G.
    + intros ? ? ? _ G. cbn. now rewrite G.
    + intros ? ? ? _ G. cbn. now rewrite G.
    + intros ? ? ? _ G. now rewrite G.
    + assert (Hs : forall q, In q eqs -> calls (fst q) ++ calls (snd q) = []) by (intros q Hq; apply (flat_nil (fun e => calls (fst e) ++ calls (snd e)) eqs); auto).
      clear - Hs. induction eqs as [|q eqs IHq]; cbn [map]; constructor; [|apply IHq; intros; apply Hs; now right].
      split; [reflexivity|]. cbn [calls]. apply Hs. now left.
    + intros e e' _ He He'. apply in_map_iff in He as (? & <- & _). apply in_map_iff in He' as (? & <- & _). reflexivity.
Qed.
Lemma calls_free f (a : AST N) c d l l' : calls a = [] -> vars c = vars d -> eval_rec f a c l = eval_rec f a d l'.
Proof.
  intros Ha Hc. destruct (calls_free_rle f a c d l l' Ha Hc) as [E|E]; [|exact E].
  destruct (calls_free_rle f a d c l' l Ha (eq_sym Hc)) as [E'|E']; congruence.
Qed.

Lemma flat_map_nil {A B} (f : A -> list B) l : (forall x, In x l -> f x = []) -> flat_map f l = [].
Proof. induction l as [|x l IH]; cbn; intros H; [reflexivity|]. rewrite (H x) by now left. apply IH. auto. Qed.
Lemma fill_calls s (a : AST N) : calls a = [] -> calls (fill s a) = [].
Proof.
  assert (L : forall l, Forall (fun a => calls a = [] -> calls (fill s a) = []) l -> flat_map calls l = [] -> flat_map calls (map (fill s) l) = []).
  { intros l F. induction F as [|a0 l Ha F IH]; cbn; [auto|]. intros G. apply app_eq_nil in G as [G1 G2]. now rewrite Ha, IH. }
  induction a using tree_ind; cbn [fill calls]; intros G; auto.
  - induction H as [|r m Hr Hm IH]; cbn; [auto|]. cbn in G. apply app_eq_nil in G as [G1 G2]. rewrite L, IH; auto.
  - destruct (value_for s n); [apply calls_literal|reflexivity].
  - discriminate.
  - apply app_eq_nil in G as [G1 G2]. now rewrite IHa1, IHa2.
  - apply app_eq_nil in G as [G1 G2]. apply app_eq_nil in G2 as [G2 G3]. now rewrite IHa1, IHa2, IHa3.
  - apply app_eq_nil in G as [G1 G2]. now rewrite IHa1, IHa2.
  - induction H as [|e eqs [H1 H2] H IH]; cbn; [auto|]. cbn in G. apply app_eq_nil in G as [G1 G2]. apply app_eq_nil in G1 as [G0 G1]. rewrite H1, H2, IH; auto.
Qed.
Lemma fill_mentions s (a : AST N) n : (forall n, In n (bound a) -> value_for s n = None) -> In n (mentions (fill s a)) -> value_for s n = None.
Proof.
  assert (L : forall l, Forall (fun a => (forall n, In n (bound a) -> value_for s n = None) -> In n (mentions (fill s a)) -> value_for s n = None) l ->
    (forall n, In n (flat_map bound l) -> value_for s n = None) -> In n (flat_map mentions (map (fill s) l)) -> value_for s n = None).
  { intros l F. induction F as [|a0 l Ha F IH]; cbn; [easy|]. intros G. rewrite in_app_iff. intros [Hn|Hn]; [apply Ha|apply IH]; auto; intros m Hm; apply G, in_app_iff; auto. }
  induction a using tree_ind; cbn [fill mentions bound]; intros G; try (now apply L).
  - easy.
  - induction H as [|r m Hr Hm IH]; cbn; [easy|]. rewrite in_app_iff. intros [Hn|Hn]; [apply (L r)|apply IH]; auto; intros k Hk; apply G; cbn; rewrite in_app_iff; auto.
  - destruct (value_for s n0) eqn:E; [rewrite mentions_literal; easy|]. intros [<-|[]]. exact E.
  - rewrite in_app_iff. intros [Hn|Hn]; [apply IHa1|apply IHa2]; auto; intros k Hk; apply G; rewrite in_app_iff; auto.
  - intros [<-|Hn]; [apply G; now left|]. rewrite !in_app_iff in Hn. destruct Hn as [Hn|[Hn|Hn]]; [apply IHa1|apply IHa2|apply IHa3]; auto; intros k Hk; apply G; right; rewrite !in_app_iff; auto.
  - intros [<-|Hn]; [apply G; now left|]. rewrite !in_app_iff in Hn. destruct Hn as [Hn|Hn]; [apply IHa1|apply IHa2]; auto; intros k Hk; apply G; right; rewrite !in_app_iff; auto.
  - rewrite in_app_iff. intros [Hn|Hn]; [apply G; rewrite in_app_iff; auto|].
    assert (G' : forall n, In n (flat_map (fun e => bound (fst e) ++ bound (snd e)) eqs) -> value_for s n = None) by (intros k Hk; apply G, in_app_iff; now right).
    clear G. induction H as [|e eqs [H1 H2] H IH]; cbn in Hn; [easy|]. cbn in G'. rewrite !in_app_iff in Hn.
    destruct Hn as [[Hn|Hn]|Hn]; [apply H1|apply H2|apply IH]; auto; intros k Hk; apply G'; rewrite !in_app_iff; auto.
Qed.

Lemma value_for_combine params (p : list V) n : (exists v, value_for (combine params p) n = Some v) -> In n params.
Proof.
  intros [v H]. unfold value_for in H. destruct (find _ _) as [[m w]|] eqn:E; [|discriminate]. apply find_some in E as [E1 E2]. apply str_eqb_eq in E2. cbn in E2. subst. eapply in_combine_l; eauto.
Qed.
(** One combination of arguments. *)
Lemma body_outcome (fn : MFun N) p c l r :
  distinct_names c -> calls (fun_ast fn) = [] -> (forall n, In n (bound (fun_ast fn)) -> ~ In n (fun_inputs fn)) ->
  outcome_in l (fun_ast fn) (mkCtx (call_vars (fun_inputs fn) p (vars c)) (funs c)) r <->
  outcome_in [] (fill (combine (fun_inputs fn) p) (fun_ast fn)) c r.
Proof.
  intros Hd Hc Hb. set (s := combine (fun_inputs fn) p). set (inner := mkCtx _ _).
  assert (Hb' : forall n, In n (bound (fun_ast fn)) -> value_for s n = None).
  { intros n Hn. destruct (value_for s n) eqn:E; [|reflexivity]. exfalso. apply (Hb n Hn). eapply value_for_combine; eauto. }
  rewrite (fill_outcome s l (fun_ast fn) inner r); auto.
  - assert (E : forall f, eval_rec f (fill s (fun_ast fn)) inner l = eval_rec f (fill s (fun_ast fn)) c []).
    { intros f. pose proof (fill_calls s (fun_ast fn) Hc) as Hcf.
      rewrite (calls_free f _ inner (mkCtx (vars inner) []) l [] Hcf eq_refl), (calls_free f _ c (mkCtx (vars c) []) [] [] Hcf eq_refl).
      apply (eval_agree (fun n => In n (mentions (fill s (fun_ast fn))))); [intros n Hn; exact Hn| |reflexivity|intros n g Hg; discriminate].
      split; [|exact I].
      intros n Hn. apply fill_mentions in Hn; [|exact Hb']. cbn [vars inner]. rewrite named_call_vars.
      assert (Enn : named n (map (fun nv => mkVar (fst nv) [snd nv]) (combine (fun_inputs fn) p)) = []).
      { fold s. clear - Hn. unfold value_for in Hn. destruct (find _ s) eqn:E; [discriminate|]. clear Hn. unfold named.
        induction s as [|e s IH]; [reflexivity|]. cbn in *. destruct (str_eqb (fst e) n); [discriminate|auto]. }
      rewrite Enn. rewrite named_distinct by exact Hd. destruct (lookup_var c n); reflexivity. }
    unfold outcome_in. split; intros [Hr [f0 H]]; (split; [exact Hr|]); exists f0; intros f Hf; [rewrite <- E|rewrite E]; auto.
  - intros n v Hv. destruct (call_vars_binds fn p c) as [_ HL]. specialize (HL n). fold inner in HL.
    unfold value_for in Hv. unfold s in Hv. destruct (find _ _) as [nv|]; [|discriminate]. exists (mkVar n [snd nv]). split; [exact HL|]. cbn in *. congruence.
Qed.

(** A call of a function that calls no function is its body, once for each
    combination of the values of the arguments, with these values filled in for
    the parameters. *)
Theorem c66_call name args (c : Ctx N) fn vss :
  name <> [] -> lookup_fun c name = Some fn -> List.length args = List.length (fun_inputs fn) ->
  distinct_names c ->
  calls (fun_ast fn) = [] -> (forall n, In n (bound (fun_ast fn)) -> ~ In n (fun_inputs fn)) ->
  Forall2 (fun e vs => outcome e c (Ok vs)) args vss ->
  same_behaviour (AFun name args) c
    (AList (map (fun p => fill (combine (fun_inputs fn) p) (fun_ast fn)) (choices vss))) c.
Proof.
  intros Hn Hf Hl Hd Hc Hb Ha. apply behaviour_intro. intros r.
  assert (M : exists f0, forall f, f0 <= f -> mapM (fun i => eval_rec f i c []) args = Ok vss).
  { clear - Ha. induction Ha as [|e vs args vss [_ [f1 H1]] Ha [f2 IH]]; [exists 0; reflexivity|]. exists (max f1 f2). intros f Hf. cbn [mapM].
    unfold eval in H1. rewrite H1 by lia. cbn [bind]. rewrite IH by lia. reflexivity. }
  destruct M as [f0 M].
  assert (E1 : forall f, f0 <= f -> eval (S f) (AFun name args) c =
    concatM (fun p => eval_rec f (fun_ast fn) (mkCtx (call_vars (fun_inputs fn) p (vars c)) (funs c)) name) (choices vss)).
  { intros f Hf'. unfold eval. cbn [eval_rec]. rewrite (proj2 (str_eqb_neq [] name)) by auto. rewrite Hf, Hl, Nat.eqb_refl. cbn [negb]. rewrite M by exact Hf'. cbn [bind]. now rewrite cart_prod_choices. }
  assert (E2 : forall f, eval (S f) (AList (map (fun p => fill (combine (fun_inputs fn) p) (fun_ast fn)) (choices vss))) c =
    concatM (fun p => eval_rec f (fill (combine (fun_inputs fn) p) (fun_ast fn)) c []) (choices vss)).
  { intros f. unfold eval. cbn [eval_rec]. now rewrite concatM_map. }
  assert (B : forall p l r, outcome_in l (fun_ast fn) (mkCtx (call_vars (fun_inputs fn) p (vars c)) (funs c)) r <->
    outcome_in [] (fill (combine (fun_inputs fn) p) (fun_ast fn)) c r) by (intros; now apply body_outcome).
  clear M Ha.
  assert (A : forall (a b : AST N) c d l l', (forall r, outcome_in l a c r -> outcome_in l' b d r) -> forall f, ap (eval_rec f a c l) (fun F => eval_rec F b d l')).
  { clear. intros a b c d l l' H f. destruct (eval_rec f a c l) eqn:E; [| | |now left];
      (apply out_ap in E; [|discriminate]; apply H in E; destruct E as [_ [F0 E]]; right; now exists F0). }
  split; intros [Hr [f1 H]]; (split; [exact Hr|]).
  - specialize (H (S (max f0 f1)) ltac:(lia)). rewrite E1 in H by lia.
    assert (G := ap_concatM (fun p => eval_rec (max f0 f1) (fun_ast fn) (mkCtx (call_vars (fun_inputs fn) p (vars c)) (funs c)) name)
      (fun F p => eval_rec F (fill (combine (fun_inputs fn) p) (fun_ast fn)) c []) (choices vss) (fun p => A _ _ _ _ _ _ (fun r => proj1 (B p name r)) _)).
    destruct G as [G|[F0 G]]; [congruence|]. exists (S F0). intros [|F] HF; [lia|]. rewrite E2. rewrite G by lia. exact H.
  - specialize (H (S f1) ltac:(lia)). rewrite E2 in H.
    assert (G := ap_concatM (fun p => eval_rec f1 (fill (combine (fun_inputs fn) p) (fun_ast fn)) c [])
      (fun F p => eval_rec F (fun_ast fn) (mkCtx (call_vars (fun_inputs fn) p (vars c)) (funs c)) name) (choices vss) (fun p => A _ _ _ _ _ _ (fun r => proj2 (B p name r)) _)).
    destruct G as [G|[F0 G]]; [congruence|]. exists (S (max F0 f0)). intros [|F] HF; [lia|]. rewrite E1 by lia. rewrite G by lia. exact H.
Qed.
End Props.

(** ** Concrete cases *)
Module Examples.
#[local] Existing Instance NT.
#[local] Existing Instance ET.
Open Scope string_scope.
Notation X := (AVar (lit "x")).
Notation num z := (AScalar (Toy.num z)).

(** [2x] and [2*x] can be exchanged, also under an integral over [x] and in a
    function. *)
Definition juxt : AST NT := AOp OHiddenMult (num 2) X.
Definition times : AST NT := AOp OMult (num 2) X.
Example juxt_times inside c r : outcome_in inside juxt c r <-> outcome_in inside times c r.
Proof.
  assert (E : forall f, eval_rec f juxt c inside = eval_rec f times c inside) by (intros [|f]; reflexivity).
  unfold outcome_in. split; intros [H [f0 G]]; (split; [exact H|]); exists f0; intros f Hf; [rewrite <- E|rewrite E]; auto.
Qed.
Example exchanged : rp (exchange juxt times) anywhere (AInt juxt (lit "x") (num 0) juxt) (AInt times (lit "x") (num 0) times).
Proof. apply rp_inside, rc_int; [right; split; [exact I|]| |]; try apply rp_same; apply rp_here; split; reflexivity. Qed.
Example exchanged_in_function :
  rp_ctx (exchange juxt times) anywhere
    (mkCtx [mkVar (lit "x") [sc 3; sc 4]] [mkFun (lit "f") (AOp OAdd juxt (num 1)) [lit "x"]])
    (mkCtx [mkVar (lit "x") [sc 3; sc 4]] [mkFun (lit "f") (AOp OAdd times (num 1)) [lit "x"]]).
Proof.
  split; [reflexivity|]. constructor; [|constructor]. split; [reflexivity|]. split; [reflexivity|].
  apply rp_inside, rc_op; [apply rp_here; split; reflexivity|apply rp_same].
Qed.

(** [x + D(x*x, x, x)] with the values of [x] written for it; the bound [x]
    stays. *)
Definition c0 : Ctx NT := mkCtx [mkVar (lit "x") [sc 7; sc 8]] [mkFun (lit "f") (AOp OAdd (AOp OMult X X) (AVar (lit "y"))) [lit "x"]].
Example variable_case :
  lookup_var c0 (lit "x") = Some (mkVar (lit "x") [sc 7; sc 8]) /\
  rp (exchange X (written [sc 7; sc 8])) (fun n => n <> lit "x")
    (AOp OAdd X (ADer (AOp OMult X X) (lit "x") X))
    (AOp OAdd (written [sc 7; sc 8]) (ADer (AOp OMult X X) (lit "x") (written [sc 7; sc 8]))).
Proof.
  split; [reflexivity|]. apply rp_inside, rc_op; [apply rp_here; split; reflexivity|].
  apply rp_inside, rc_der; [now left|apply rp_here; split; reflexivity].
Qed.

(** f(x) = x*x + y called with two values where y = 1. *)
Definition c1 : Ctx NT := mkCtx [mkVar (lit "y") [sc 1]] (funs c0).
Definition fx : MFun NT := mkFun (lit "f") (AOp OAdd (AOp OMult X X) (AVar (lit "y"))) [lit "x"].
Definition arg : AST NT := AList [num 2; num 3].
Example call_case :
  lit "f" <> [] /\ lookup_fun c1 (lit "f") = Some fx /\ List.length [arg] = List.length (fun_inputs fx) /\
  distinct_names c1 /\ calls (fun_ast fx) = [] /\ (forall n, In n (bound (fun_ast fx)) -> ~ In n (fun_inputs fx)) /\
  Forall2 (fun e vs => outcome e c1 (Ok vs)) [arg] [[sc 2; sc 3]].
Proof.
  split; [discriminate|]. split; [reflexivity|]. split; [reflexivity|].
  split; [repeat constructor; cbn; intuition|]. split; [reflexivity|]. split; [intros n []|].
  repeat constructor; [discriminate|]. exists 2. intros [|[|f]] Hf; [lia|lia|]. reflexivity.
Qed.
Example call_value : eval 6 (AFun (lit "f") [arg]) c1 = Ok [sc 5; sc 10] /\
  map (fun p => fill (combine (fun_inputs fx) p) (fun_ast fx)) (choices [[sc 2; sc 3]]) =
  [AOp OAdd (AOp OMult (num 2) (num 2)) (AVar (lit "y")); AOp OAdd (AOp OMult (num 3) (num 3)) (AVar (lit "y"))].
Proof. split; [apply res_same_ok; vm_compute; reflexivity|reflexivity]. Qed.
End Examples.
