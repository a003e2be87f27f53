(** * Replace: replacing a part of an expression by one with the same outcomes. *)
From Coq Require Import List NArith ZArith Bool Lia Arith.
From Verif Require Import Base BaseFacts F64 Num Types Maths Helpers Parser Eval EvalFuel EvalRel EvalLim SpecEval EvalProofs ContextProofs Parens ReplaceSpec.
Import ListNotations.

Section Replace.
Context {N : Num} {En : Env}.
Notation V := (Value N).
Variable H : AST N -> AST N -> Prop.
Variable B : str -> Prop.
Notation rp := (rp H B).
Notation rc := (rc H B).

Variable whole : bool.
Variable C : Ctx N -> Prop.
Hypothesis HB : whole = true -> (forall n, B n) /\ (forall c, C c).
Hypothesis pq : forall p q c l r, H p q -> C c -> outcome_in l p c r -> outcome_in l q c r.
Hypothesis C_add : forall c v, B (var_name v) -> C c -> C (add_var c v).
Hypothesis C_remove : forall c n, B n -> C c -> C (remove_var c n).
Hypothesis C_app : forall c l, (forall v, In v l -> B (var_name v)) -> C c -> C (mkCtx (vars c ++ l) (funs c)).
Hypothesis C_first : forall c x, B x -> C c -> C (mkCtx (remove_first x (vars c)) (funs c)).

Definition fr (fs gs : list (MFun N)) : Prop := if whole then Forall2 (rp_fun H B) fs gs else fs = gs.
Definition cr (c d : Ctx N) : Prop := vars c = vars d /\ fr (funs c) (funs d) /\ C d.

Lemma cr_eq c d : whole = false -> cr c d -> c = d.
Proof. intros E (H1 & H2 & _). unfold fr in H2. rewrite E in H2. destruct c, d; cbn in *; congruence. Qed.
Lemma cr_add c d v : B (var_name v) -> cr c d -> cr (add_var c v) (add_var d v).
Proof. intros Hv (H1 & H2 & H3). split; [cbn; now rewrite H1|]. split; [exact H2|auto]. Qed.
Lemma cr_remove c d n : B n -> cr c d -> cr (remove_var c n) (remove_var d n).
Proof. intros Hv (H1 & H2 & H3). split; [cbn; now rewrite H1|]. split; [exact H2|auto]. Qed.
Lemma cr_app c d l : (forall v, In v l -> B (var_name v)) -> cr c d -> cr (mkCtx (vars c ++ l) (funs c)) (mkCtx (vars d ++ l) (funs d)).
Proof. intros Hv (H1 & H2 & H3). split; [cbn; now rewrite H1|]. split; [exact H2|auto]. Qed.
Lemma cr_first c d x : B x -> cr c d -> cr (mkCtx (remove_first x (vars c)) (funs c)) (mkCtx (remove_first x (vars d)) (funs d)).
Proof. intros Hv (H1 & H2 & H3). split; [cbn; now rewrite H1|]. split; [exact H2|auto]. Qed.
Lemma cr_exists c d n : B n -> cr c d ->
  existsb (fun v => str_eqb (var_name v) n) (vars c) = existsb (fun v => str_eqb (var_name v) n) (vars d).
Proof. intros _ (H1 & _). now rewrite H1. Qed.
Lemma cr_lookup c d n : cr c d ->
  (whole = true /\ exists f g, lookup_fun c n = Some f /\ lookup_fun d n = Some g /\ rp_fun H B f g) \/
  (whole = false /\ c = d) \/ (lookup_fun c n = None /\ lookup_fun d n = None).
Proof.
  intros Hc. destruct whole eqn:E; [|right; left; split; [reflexivity|now apply cr_eq]].
  destruct Hc as (_ & Hc & _). unfold fr in Hc. rewrite E in Hc. unfold lookup_fun. induction Hc as [|f g fs gs Hf Hc IH]; [right; right; auto|].
  cbn. destruct Hf as (H1 & H2 & H3). rewrite <- H1. destruct (str_eqb (fun_name f) n).
  - left. split; [reflexivity|]. exists f, g. unfold rp_fun. auto.
  - exact IH.
Qed.
Lemma rc_refl a : whole = true -> rc a a.
Proof.
  intros _.
  assert (L : forall l : list (AST N), Forall2 rp l l) by (induction l; constructor; auto; apply rp_same).
  destruct a; constructor; auto using rp_same.
  - induction m; constructor; auto.
Qed.
Lemma ap_self f a c l : ap (eval_rec f a c l) (fun F => eval_rec F a c l).
Proof.
  destruct (eval_rec f a c l) eqn:E; [| | |now left]; right; exists f; intros F HF;
    (destruct (eval_rec_mono f F a c l HF) as [G|G]; [congruence|now rewrite <- G]).
Qed.
Lemma out_ap l a c r f : eval_rec f a c l = r -> r <> Fuel -> outcome_in l a c r.
Proof.
  intros E Hr. split; [exact Hr|]. exists f. intros g Hg. destruct (eval_rec_mono f g a c l Hg) as [G|G]; congruence.
Qed.

Lemma replace_main f : forall a b c d l, rp a b -> cr c d -> ap (eval_rec f a c l) (fun F => eval_rec F b d l).
Proof.
  induction f as [|f IH]; intros a b c d l Hab Hc; [apply ap_fuel|].
  assert (Hrc : forall a b, rc a b -> ap (eval_rec (S f) a c l) (fun F => eval_rec F b d l)).
  { clear a b Hab. intros a b Hab.
    eapply (ap_unshift _ (fun F => eval_rec (S F) b d l)); [|reflexivity].
    destruct Hab as [s|n|v v' Hv|m m' Hm|v v' Hv|n v v' Hv|op x x' y y' Hx Hy|e e' x a a' u u' He Ha Hu|e e' x a a' He Ha|qs qs' xs Hqs]; cbn [eval_rec].
    - apply ap_refl.
    - unfold lookup_var. destruct Hc as (Hc & _). rewrite Hc. destruct (find _ _); apply ap_refl.
    - apply ap_bind; [|intros; apply ap_refl]. apply (ap_mapM2 rp); [exact Hv|]. intros i j Hij _ _. apply ap_bind; [now apply IH|intros; apply ap_refl].
    - apply ap_bind; [|intros; apply ap_refl]. apply (ap_mapM2 (Forall2 rp)); [exact Hm|]. intros r r' Hr _ _.
      apply (ap_mapM2 rp); [exact Hr|]. intros i j Hij _ _. apply ap_bind; [now apply IH|intros; apply ap_refl].
    - apply (ap_concatM2 rp); [exact Hv|]. intros i j Hij _ _. now apply IH.
    - destruct (str_eqb l n); [apply ap_refl|].
      rewrite <- (F2_length _ _ _ Hv).
      assert (Hargs : ap (mapM (fun i => eval_rec f i c l) v) (fun F => mapM (fun i => eval_rec F i d l) v')) by
        (apply (ap_mapM2 rp); [exact Hv|]; intros i j Hij _ _; now apply IH).
      destruct (cr_lookup c d n Hc) as [[Ew (fn & gn & E1 & E2 & H1 & H2 & H3)]|[[Ew <-]|[E1 E2]]].
      + rewrite E1, E2, <- H2. destruct (negb _); [apply ap_refl|]. apply ap_bind; [exact Hargs|]. intros args. apply ap_concatM. intros ps.
        apply IH; [exact H3|]. destruct Hc as (Hv1 & Hf1 & Hc1). split; [cbn; now rewrite Hv1|]. split; [exact Hf1|]. now apply HB.
      + destruct (lookup_fun c n) as [fn|]; [|apply ap_refl]. destruct (negb _); [apply ap_refl|]. apply ap_bind; [exact Hargs|]. intros args. apply ap_concatM. intros ps.
        apply ap_self.
      + rewrite E1, E2. apply ap_refl.
    - apply ap_bind; [now apply IH|]. intros lv. apply ap_bind; [now apply IH|]. intros rv. apply ap_refl.
    - apply ap_bind; [now apply IH|]. intros lv. apply ap_bind; [now apply IH|]. intros rv. apply ap_concatM. intros i. apply ap_concatM. intros j.
      assert (Hf : exists F0, forall F, F0 <= F -> f <= F) by (exists f; auto).
      assert (D : (B x /\ rp e e') \/ (whole = false /\ e = e')).
      { destruct He as [<-|He]; [|now left]. destruct whole; [left; split; [now apply HB|apply rp_same]|now right]. }
      destruct D as [[Hx He']|[Ew <-]].
      + apply (integral_lim _ (fun F b c => eval_rec F b c []) rp cr B); auto using cr_add, cr_remove, cr_app, cr_first, cr_exists.
      + rewrite <- (cr_eq c d Ew Hc). apply (integral_lim _ (fun F b c => eval_rec F b c []) eq eq (fun _ => True)); intros; subst; auto using ap_self.
    - apply ap_bind; [now apply IH|]. intros lv. apply ap_concatM. intros i.
      assert (D : (B x /\ rp e e') \/ (whole = false /\ e = e')).
      { destruct He as [<-|He]; [|now left]. destruct whole; [left; split; [now apply HB|apply rp_same]|now right]. }
      destruct D as [[Hx He']|[Ew <-]].
      + apply (derivative_lim _ (fun F b c => eval_rec F b c []) rp cr B); auto using cr_add, cr_remove, cr_app, cr_first, cr_exists.
        intros; apply IH; auto using rp_same.
      + rewrite <- (cr_eq c d Ew Hc). apply (derivative_lim _ (fun F b c => eval_rec F b c []) eq eq (fun _ => True)); intros; subst; auto using ap_self.
    - assert (D : ((forall n, In n xs -> B n) /\ Forall2 (fun s s' => rp (fst s) (fst s') /\ rp (snd s) (snd s')) qs qs') \/ (whole = false /\ qs = qs')).
      { destruct Hqs as [<-|Hqs]; [|now left]. destruct whole; [left; split; [intros; now apply HB|]|now right].
        clear. induction qs; constructor; auto using rp_same. }
      destruct D as [[Hx He']|[Ew <-]].
      + apply (solve_lim _ (fun F b c => eval_rec F b c []) rp cr B); auto using cr_add, cr_remove, cr_app, cr_first, cr_exists.
        * intros; apply IH; auto using rp_same.
        * clear - He'. induction He' as [|s s' qs qs' [H1 H2] He' IHq]; cbn [map]; constructor; auto. apply rp_inside. constructor; assumption.
        * intros s s' _ Hs Hs'. apply in_map_iff in Hs as (? & <- & _). apply in_map_iff in Hs' as (? & <- & _). reflexivity.
      + rewrite <- (cr_eq c d Ew Hc). apply (solve_lim _ (fun F b c => eval_rec F b c []) eq eq (fun _ => True)); intros; subst; auto using ap_self, F2_eq. }
  destruct Hab as [p q Hpq|a|a b Hab].
  - assert (G : ap (eval_rec (S f) p c l) (fun F => eval_rec F p d l)).
    { destruct whole eqn:Ew; [apply Hrc; now apply rc_refl|]. rewrite (cr_eq c d Ew Hc). apply ap_self. }
    destruct G as [G|[F0 G]]; [now left|].
    destruct (eval_rec (S f) p c l) eqn:E; try (now left);
      (assert (O : outcome_in l p d (eval_rec (S f) p c l)) by (rewrite E; split; [discriminate|exists F0; exact G]);
       rewrite E in O; apply (pq p q d l _ Hpq) in O; [|apply Hc]; destruct O as [_ [F1 O]]; right; exists F1; exact O).
  - destruct whole eqn:Ew; [apply Hrc; now apply rc_refl|]. rewrite (cr_eq c d Ew Hc). apply ap_self.
  - now apply Hrc.
Qed.

Lemma replace_outcome a b c d l r : rp a b -> cr c d -> outcome_in l a c r -> outcome_in l b d r.
Proof.
  intros Hab Hc [Hr [f0 H0]]. split; [exact Hr|]. destruct (replace_main f0 a b c d l Hab Hc) as [E|[F0 E]].
  - rewrite H0 in E by lia. congruence.
  - exists F0. intros F HF. rewrite E by exact HF. apply H0. lia.
Qed.
End Replace.
