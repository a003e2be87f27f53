(** * EvalLim: evaluating two related terms in two related contexts, without a
    bound on how much more work the second evaluation takes.

    [EvalRel] compares two evaluations step by step; here the second one only
    has to arrive at the same outcome eventually. *)
From Coq Require Import List NArith ZArith Bool Lia Arith.
From Verif Require Import Base BaseFacts F64 Num Types Maths Helpers Parser Eval EvalFuel EvalRel.
Import ListNotations.

(** [r] is undefined, or [g] arrives at [r] and stays there. *)
Definition ap {E A} (r : res E A) (g : nat -> res E A) : Prop :=
  r = Fuel \/ exists F0, forall F, F0 <= F -> g F = r.
Lemma ap_refl {E A} (r : res E A) : ap r (fun _ => r).
Proof. right. now exists 0. Qed.
Lemma ap_fuel {E A} (g : nat -> res E A) : ap Fuel g.
Proof. now left. Qed.
Lemma ap_bind {E A B} (r : res E A) r' (f : A -> res E B) f' :
  ap r r' -> (forall a, ap (f a) (fun F => f' F a)) -> ap (bind r f) (fun F => bind (r' F) (f' F)).
Proof.
  intros [->|[F0 H0]] H; [now left|]. destruct r as [a|e| |]; cbn [bind].
  - destruct (H a) as [->|[F1 H1]]; [now left|]. right. exists (max F0 F1). intros F HF. rewrite H0 by lia. cbn [bind]. apply H1. lia.
  - right. exists F0. intros F HF. now rewrite H0.
  - right. exists F0. intros F HF. now rewrite H0.
  - now left.
Qed.
Lemma ap_mapM2 {E A A' B} (R : A -> A' -> Prop) (f : A -> res E B) f' l l' :
  Forall2 R l l' -> (forall a a', R a a' -> In a l -> In a' l' -> ap (f a) (fun F => f' F a')) -> ap (mapM f l) (fun F => mapM (f' F) l').
Proof.
  intros H; induction H as [|x x' l l' Hx H IH]; intros Hf; cbn [mapM]; [apply ap_refl|].
  apply ap_bind; [apply Hf; auto; now left|]. intros y. apply ap_bind; [|intros; apply ap_refl]. apply IH. intros; apply Hf; auto; now right.
Qed.
Lemma F2_eq {A} (l : list A) : Forall2 eq l l.
Proof. induction l; constructor; auto. Qed.
Lemma ap_mapM {E A B} (f : A -> res E B) f' l :
  (forall a, ap (f a) (fun F => f' F a)) -> ap (mapM f l) (fun F => mapM (f' F) l).
Proof. intros H. apply (ap_mapM2 eq); [apply F2_eq|]. intros a a' <- _ _. apply H. Qed.
Lemma ap_concatM {E A B} (f : A -> res E (list B)) f' l :
  (forall a, ap (f a) (fun F => f' F a)) -> ap (concatM f l) (fun F => concatM (f' F) l).
Proof. intros H. unfold concatM. apply ap_bind; [now apply ap_mapM|intros; apply ap_refl]. Qed.
Lemma ap_concatM2 {E A A' B} (R : A -> A' -> Prop) (f : A -> res E (list B)) f' l l' :
  Forall2 R l l' -> (forall a a', R a a' -> In a l -> In a' l' -> ap (f a) (fun F => f' F a')) -> ap (concatM f l) (fun F => concatM (f' F) l').
Proof. intros H Hf. unfold concatM. apply ap_bind; [now apply (ap_mapM2 R)|intros; apply ap_refl]. Qed.
Lemma ap_rle {E A} (r r' : res E A) g : rle r r' -> ap r' g -> ap r g.
Proof. intros [->| ->]; [left; reflexivity|auto]. Qed.
(** Later stages are as good. *)
Lemma ap_shift {E A} (r : res E A) g : ap r g -> ap r (fun F => g (pred F)).
Proof. intros [->|[F0 H]]; [now left|]. right. exists (S F0). intros F HF. apply H. lia. Qed.
Lemma ap_unshift {E A} (r : res E A) g g' : ap r g -> (forall F, g' (S F) = g F) -> ap r g'.
Proof. intros [->|[F0 H]] G; [now left|]. right. exists (S F0). intros [|F] HF; [lia|]. rewrite G. apply H. lia. Qed.

Section Lim.
Context {N : Num} {En : Env}.
Notation V := (Value N).
Variable ev : AST N -> Ctx N -> res EvalError (list V).
Variable ev' : nat -> AST N -> Ctx N -> res EvalError (list V).
Variable ar : AST N -> AST N -> Prop.
Variable cr : Ctx N -> Ctx N -> Prop.
Variable P : str -> Prop.
Hypothesis Hev : forall b b' c c', ar b b' -> cr c c' -> ap (ev b c) (fun F => ev' F b' c').
Hypothesis Hq : forall x y c c', cr c c' -> ap (ev (quotient_ast x y) c) (fun F => ev' F (quotient_ast x y) c').
Hypothesis cr_add : forall c c' v, P (var_name v) -> cr c c' -> cr (add_var c v) (add_var c' v).
Hypothesis cr_remove : forall c c' n, P n -> cr c c' -> cr (remove_var c n) (remove_var c' n).
Hypothesis cr_app : forall c c' l, (forall v, In v l -> P (var_name v)) -> cr c c' -> cr (mkCtx (vars c ++ l) (funs c)) (mkCtx (vars c' ++ l) (funs c')).
Hypothesis cr_first : forall c c' x, P x -> cr c c' -> cr (mkCtx (remove_first x (vars c)) (funs c)) (mkCtx (remove_first x (vars c')) (funs c')).
Hypothesis cr_exists : forall c c' n, P n -> cr c c' ->
  existsb (fun v => str_eqb (var_name v) n) (vars c) = existsb (fun v => str_eqb (var_name v) n) (vars c').

Lemma integral_loop_lim f (h : nat -> nat) e e' x c c' dx ub b sums : ar e e' -> cr c c' -> P x ->
  (exists F0, forall F, F0 <= F -> f <= h F) ->
  ap (integral_loop ev f e x c (remove_first x (vars c)) dx ub b sums)
     (fun F => integral_loop (ev' F) (h F) e' x c' (remove_first x (vars c')) dx ub b sums).
Proof.
  intros He Hc Hx. revert h b sums; induction f as [|f IH]; intros h b sums Hh; [cbn [integral_loop]; apply ap_fuel|].
  destruct Hh as [F0 Hh].
  assert (G : ap (integral_loop ev (S f) e x c (remove_first x (vars c)) dx ub b sums)
     (fun F => integral_loop (ev' F) (S (pred (h F))) e' x c' (remove_first x (vars c')) dx ub b sums)).
  { cbn [integral_loop]. destruct (nltb b ub); [|apply ap_refl].
    apply ap_bind.
    - apply Hev; [exact He|]. apply (cr_app (mkCtx (remove_first x (vars c)) (funs c)) (mkCtx (remove_first x (vars c')) (funs c'))); [|now apply cr_first].
      intros v [<-|[]]. exact Hx.
    - intros es. apply ap_bind; [apply ap_refl|]. intros s. apply (IH (fun F => pred (h F))). exists F0. intros F HF. specialize (Hh F HF). lia. }
  destruct G as [G|[F1 G]]; [now left|]. right. exists (max F0 F1). intros F HF.
  specialize (Hh F ltac:(lia)). destruct (h F) as [|n] eqn:E; [lia|]. rewrite <- (G F) by lia. now rewrite E.
Qed.
Lemma integral_lim f (h : nat -> nat) e e' x l u c c' : ar e e' -> cr c c' -> P x -> (exists F0, forall F, F0 <= F -> f <= h F) ->
  ap (calculate_integral ev f e x l u c) (fun F => calculate_integral (ev' F) (h F) e' x l u c').
Proof.
  intros He Hc Hx Hf. unfold calculate_integral. destruct l; try apply ap_refl. destruct u; try apply ap_refl.
  destruct (neqb _ _); [apply ap_refl|]. destruct (nltb _ _); (apply ap_bind; [now apply integral_loop_lim|intros ?; apply ap_refl]).
Qed.
Lemma derivative_lim e e' x a c c' : ar e e' -> cr c c' -> P x ->
  ap (fst (calculate_derivative ev e x a c)) (fun F => fst (calculate_derivative (ev' F) e' x a c')).
Proof.
  intros He Hc Hx. unfold calculate_derivative. destruct a; try apply ap_refl.
  assert (H1 : cr (add_var (remove_var c x) (mkVar x [Scalar s])) (add_var (remove_var c' x) (mkVar x [Scalar s]))) by auto.
  assert (H2 : cr (add_var (remove_var (add_var (remove_var c x) (mkVar x [Scalar s])) x) (mkVar x [Scalar (nadd s eps)]))
                  (add_var (remove_var (add_var (remove_var c' x) (mkVar x [Scalar s])) x) (mkVar x [Scalar (nadd s eps)]))) by auto.
  destruct (Hev _ _ _ _ He H1) as [-> |[F1 G1]]; [now left|].
  destruct (ev e (add_var (remove_var c x) _)) as [fxs|er| |];
    [|right; exists F1; intros F HF; now rewrite (G1 F HF)..|now left].
  destruct (Hev _ _ _ _ He H2) as [-> |[F2 G2]]; [now left|].
  destruct (ev e (add_var (remove_var (add_var _ _) _) _)) as [fxhs|er| |];
    [|right; exists (max F1 F2); intros F HF; rewrite (G1 F), (G2 F) by lia; reflexivity..|now left].
  match goal with |- ap (fst (if ?b then _ else _)) _ => destruct b eqn:Eb end.
  { right; exists (max F1 F2); intros F HF; rewrite (G1 F), (G2 F) by lia; now rewrite Eb. }
  match goal with |- ap (fst (match mapM ?f ?l with _ => _ end)) _ =>
    assert (H : ap (mapM f l) (fun F => mapM (fun p => ev' F (quotient_ast (snd p) (fst p)) (add_var (remove_var (add_var (remove_var c' x) (mkVar x [Scalar s])) x) (mkVar x [Scalar (nadd s eps)]))) l))
     by (apply ap_mapM; intros; now apply Hq); destruct H as [H|[F3 H]] end.
  - rewrite H. now left.
  - right. exists (max (max F1 F2) F3). intros F HF. rewrite (G1 F), (G2 F) by lia. rewrite Eb.
    rewrite (H F) by lia. match goal with |- _ = fst (match ?m with _ => _ end) => destruct m end; reflexivity.
Qed.
Lemma derivative_newton_lim e e' x a fx c c' : ar e e' -> cr c c' -> P x ->
  ap (calculate_derivative_newton ev e x a fx c) (fun F => calculate_derivative_newton (ev' F) e' x a fx c').
Proof.
  intros He Hc Hx. unfold calculate_derivative_newton. destruct a; try apply ap_refl.
  apply ap_bind.
  - destruct fx; [apply ap_refl|]. apply ap_bind; [apply Hev; auto|intros; apply ap_refl].
  - intros v. apply ap_bind; [apply Hev; auto|]. intros vs. apply ap_bind; [apply ap_refl|]. intros w.
    apply ap_bind; [apply Hq; auto|intros; apply ap_refl].
Qed.
Lemma jacobi_lim s s' x c c' fx : Forall2 ar s s' -> cr c c' -> P_all P x ->
  ap (jacobi_and_gauss ev s x c fx) (fun F => jacobi_and_gauss (ev' F) s' x c' fx).
Proof.
  intros Hs Hc Hx. unfold jacobi_and_gauss. rewrite <- (F2_length _ _ _ Hs). apply ap_bind; [|intros; apply ap_refl].
  apply ap_mapM. intros i. destruct (idx_rel ar s s' i Hs) as [(e & e' & E & E' & He)|[E E']]; rewrite E, E'; cbn [bind]; [|apply ap_refl].
  apply ap_bind; [|intros; apply ap_refl]. apply ap_mapM. intros j.
  destruct (@idx EvalError _ x j) as [xj|er| |] eqn:Ex; cbn [bind]; try apply ap_refl.
  assert (Hj : P (var_name xj)).
  { apply Hx. unfold idx in Ex. destruct (nth_error x j) eqn:E2; [|discriminate]. injection Ex as <-. eapply nth_error_In; eauto. }
  apply ap_bind; [apply ap_refl|]. intros at_. apply ap_bind; [apply ap_refl|]. intros f.
  apply ap_bind; [|intros; apply ap_refl]. apply derivative_newton_lim; auto. apply cr_app; [|exact Hc]. intros v Hv. apply Hx. eapply in_others; eauto.
Qed.
Lemma eval_scalars_lim s s' c c' : Forall2 ar s s' -> cr c c' -> ap (mapM (eval_scalar ev c) s) (fun F => mapM (eval_scalar (ev' F) c') s').
Proof.
  intros H Hc. apply (ap_mapM2 ar); [exact H|]. intros e e' He _ _. unfold eval_scalar. apply ap_bind; [now apply Hev|intros; apply ap_refl].
Qed.
Lemma cr_add_all' x c c' : P_all P x -> cr c c' -> cr (add_all c x) (add_all c' x).
Proof. revert c c'; induction x as [|v x IH]; intros c c' Hx Hc; cbn; auto. apply IH; [intros w Hw; apply Hx; now right|]. apply cr_add; auto. apply Hx; now left. Qed.
Lemma cr_remove_all' x c c' : P_all P x -> cr c c' -> cr (remove_all c x) (remove_all c' x).
Proof. revert c c'; induction x as [|v x IH]; intros c c' Hx Hc; cbn; auto. apply IH; [intros w Hw; apply Hx; now right|]. apply cr_remove; auto. apply Hx; now left. Qed.

(** Outcomes paired with contexts. *)
Definition apc {E A} (p : res E A * Ctx N) (g : nat -> res E A * Ctx N) : Prop :=
  fst p = Fuel \/ exists F0 d, cr (snd p) d /\ forall F, F0 <= F -> g F = (fst p, d).
Lemma newton_lim s s' k k' x c c' : Forall2 ar s s' -> Forall2 ar k k' -> cr c c' -> P_all P x ->
  apc (newton ev s k x c) (fun F => newton (ev' F) s' k' x c').
Proof.
  intros Hs Hk Hc Hx. unfold newton.
  assert (H1 := cr_add_all' x _ _ Hx Hc). assert (H2 := cr_remove_all' x _ _ Hx H1).
  assert (H3 := cr_add_all' x _ _ Hx H2). assert (H4 := cr_remove_all' x _ _ Hx H3).
  destruct (eval_scalars_lim _ _ _ _ Hs H1) as [E|[F1 G1]]; [rewrite E; now left|].
  destruct (mapM (eval_scalar ev _) s) as [fx|er| |];
    try (right; exists F1; eexists; split; [exact H1|]; intros F HF; rewrite (G1 F HF); reflexivity); try now left.
  destruct (small fx) eqn:Es.
  - destruct (eval_scalars_lim _ _ _ _ Hk H3) as [E1|[F2 G2]]; [rewrite E1; now left|].
    destruct (mapM (eval_scalar ev _) k) as [l|er| |];
      try (right; exists (max F1 F2); eexists; split; [exact H3|]; intros F HF; rewrite (G1 F), Es, (G2 F) by lia; reflexivity); try now left.
    right; exists (max F1 F2), (remove_all (add_all (remove_all (add_all c' x) x) x) x). split.
    + destruct l as [|y l']; [exact H4|]. destruct (small (y :: l')); exact H4.
    + intros F HF; rewrite (G1 F), Es, (G2 F) by lia. destruct l as [|y l']; [reflexivity|]. destruct (small (y :: l')); reflexivity.
  - destruct (jacobi_lim s s' x _ _ fx Hs H2 Hx) as [E1|[F2 G2]]; [rewrite E1; now left|].
    destruct (jacobi_and_gauss ev _ _ _ _) as [nx|er| |];
      try (right; exists (max F1 F2); eexists; split; [exact H2|]; intros F HF; rewrite (G1 F), Es, (G2 F) by lia; reflexivity); try now left.
    right; exists (max F1 F2), (remove_all (add_all c' x) x). split.
    + match goal with |- context [mapM ?f ?l] => destruct (mapM f l) as [b|? | |] end; cbn [snd]; try assumption. destruct (existsb _ _); exact H2.
    + intros F HF. rewrite (G1 F), Es, (G2 F) by lia.
      match goal with |- context [mapM ?f ?l] => destruct (mapM f l) as [b|? | |] end; cbn [fst]; try reflexivity. destruct (existsb _ _); reflexivity.
Qed.
Lemma newton_loop_lim n s s' k k' : Forall2 ar s s' -> Forall2 ar k k' -> forall x c c', cr c c' -> P_all P x ->
  match newton_loop ev n s k x c with
  | Fuel => True
  | Ok a => exists d, cr (snd a) d /\ exists F0, forall F, F0 <= F -> newton_loop (ev' F) n s' k' x c' = Ok (fst a, d)
  | r => exists F0, forall F, F0 <= F -> newton_loop (ev' F) n s' k' x c' = r
  end.
Proof.
  intros Hs Hk. induction n as [|n IH]; intros x c c' Hc Hx; cbn [newton_loop]; [exists c'; split; auto; now exists 0|].
  destruct (newton_lim s s' k k' x c c' Hs Hk Hc Hx) as [H|(F0 & d & Hd & H)].
  - destruct (newton ev s k x c) as [r d]; cbn in H; subst r. exact I.
  - destruct (newton ev s k x c) as [r d0] eqn:En'. cbn [fst snd] in H, Hd.
    destruct r as [[y|y]|er| |]; auto.
    + assert (Hy : P_all P y) by (eapply newton_names; eauto).
      specialize (IH y d0 d Hd Hy). destruct (newton_loop ev n s k y d0) as [[a b]|e| |]; auto.
      * destruct IH as (d' & Hd' & F1 & H1). exists d'. split; [exact Hd'|]. exists (max F0 F1). intros F HF. rewrite (H F) by lia. apply H1. lia.
      * destruct IH as (F1 & H1). exists (max F0 F1). intros F HF. rewrite (H F) by lia. apply H1. lia.
      * destruct IH as (F1 & H1). exists (max F0 F1). intros F HF. rewrite (H F) by lia. apply H1. lia.
    + destruct (mapM first_scalar y) as [rs|?| |] eqn:Er; cbn [bind]; auto.
      * destruct rs as [|a [|b rs]]; exists d; (split; [exact Hd|]); exists F0; intros F HF; rewrite (H F HF), Er; reflexivity.
      * exists F0; intros F HF; rewrite (H F HF), Er; reflexivity.
      * exists F0; intros F HF; rewrite (H F HF), Er; reflexivity.
    + destruct er; try (exists F0; intros F HF; now rewrite (H F HF)); exists d; (split; [exact Hd|]); exists F0; intros F HF; now rewrite (H F HF).
    + exists F0; intros F HF; now rewrite (H F HF).
Qed.
Lemma start_loop_lim js s s' k k' sv c c' r : Forall2 ar s s' -> Forall2 ar k k' -> cr c c' -> (forall n, In n sv -> P n) ->
  ap (start_loop ev js s k sv c r) (fun F => start_loop (ev' F) js s' k' sv c' r).
Proof.
  intros Hs Hk Hc Hsv. revert c c' r Hc; induction js as [|j js IH]; intros c c' r Hc; cbn [start_loop]; [apply ap_refl|].
  assert (Hx : P_all P (map (fun k => mkVar k [Scalar (nof_Z j)]) sv)).
  { intros v Hv. apply in_map_iff in Hv as (n & <- & Hn). cbn. auto. }
  pose proof (newton_loop_lim 1000 s s' k k' Hs Hk _ c c' Hc Hx) as H.
  destruct (newton_loop ev 1000 s k _ c) as [[[v stop] d]|?| |]; cbn [bind].
  - destruct H as (d' & Hd & F0 & H). cbn [fst snd] in H, Hd. destruct stop.
    + right. exists F0. intros F HF. rewrite (H F HF). reflexivity.
    + destruct (IH d d' (match v with Some v => r ++ [v] | None => r end) Hd) as [E|[F1 G]]; [now left|].
      right. exists (max F0 F1). intros F HF. rewrite (H F) by lia. cbn [bind]. apply G. lia.
  - destruct H as (F0 & H). right. exists F0. intros F HF. rewrite (H F HF). reflexivity.
  - destruct H as (F0 & H). right. exists F0. intros F HF. rewrite (H F HF). reflexivity.
  - apply ap_fuel.
Qed.
Lemma comb_loop_lim cs es es' c c' sv : Forall2 ar es es' -> cr c c' -> (forall n, In n sv -> P n) ->
  ap (comb_loop ev cs es c sv) (fun F => comb_loop (ev' F) cs es' c' sv).
Proof.
  intros He Hc Hsv. induction cs as [|i cs IH]; cbn [comb_loop]; [apply ap_refl|].
  destruct (split_rel ar es es' i He) as [(s & s' & k & k' & E & E' & H1 & H2)|[E E']]; rewrite E, E'; cbn [bind fst snd]; [|apply ap_refl].
  apply ap_bind; [now apply start_loop_lim|]. intros rs. apply ap_bind; [apply ap_refl|]. intros [|? ?]; [exact IH|apply ap_refl].
Qed.
Lemma fold_add_lim (sv : list str) c c' : (forall n, In n sv -> P n) -> cr c c' ->
  cr (fold_left (fun c n => add_var c (mkVar n [Scalar nprobe])) sv c) (fold_left (fun c n => add_var c (mkVar n [Scalar nprobe])) sv c').
Proof. revert c c'; induction sv as [|n sv IH]; intros c c' H Hc; cbn; auto. apply IH; [intros; apply H; now right|]. apply cr_add; auto. apply H; now left. Qed.
Lemma fold_remove_lim (sv : list str) c c' : (forall n, In n sv -> P n) -> cr c c' -> cr (fold_left remove_var sv c) (fold_left remove_var sv c').
Proof. revert c c'; induction sv as [|n sv IH]; intros c c' H Hc; cbn; auto. apply IH; [intros; apply H; now right|]. apply cr_remove; auto. apply H; now left. Qed.

Lemma solve_lim es es' c c' sv : Forall2 ar es es' -> (forall e e', ar e e' -> In e es -> In e' es' -> is_operation e = is_operation e') ->
  cr c c' -> (forall n, In n sv -> P n) ->
  ap (do rf <- rf_new ev es c sv; find_roots ev rf) (fun F => do rf <- rf_new (ev' F) es' c' sv; find_roots (ev' F) rf).
Proof.
  intros He Hop Hc Hsv. unfold rf_new.
  assert (Hb : forallb is_operation es = forallb is_operation es').
  { clear - He Hop. induction He as [|e e' es es' H He IH]; [reflexivity|]. cbn. rewrite (Hop e e') by (auto; now left). f_equal. apply IH. intros; apply Hop; auto; now right. }
  pose proof (F2_length _ _ _ He) as Hlen.
  destruct He as [|e0 e0' es es' H0 He]; [cbn [bind]; apply ap_refl|].
  rewrite <- Hb. destruct (negb _); [cbn [bind]; apply ap_refl|].
  assert (Ex : existsb (fun n => existsb (fun v => str_eqb (var_name v) n) (vars c)) sv =
               existsb (fun n => existsb (fun v => str_eqb (var_name v) n) (vars c')) sv).
  { clear - Hsv Hc cr_exists. induction sv as [|n sv IH]; cbn; [reflexivity|].
    rewrite (cr_exists c c' n) by (auto; apply Hsv; now left). f_equal. apply IH. intros; apply Hsv; now right. }
  rewrite <- Ex. destruct (existsb _ _); [cbn [bind]; apply ap_refl|]. rewrite <- Hlen. destruct (Nat.ltb _ (List.length sv)); [cbn [bind]; apply ap_refl|].
  pose proof (fold_add_lim sv c c' Hsv Hc) as Hc1.
  destruct (Hev _ _ _ _ H0 Hc1) as [E|[F1 G1]]; [rewrite E; cbn [bind]; apply ap_fuel|].
  destruct (ev e0 _) as [vs|?| |]; cbn [bind];
    [|right; exists F1; intros F HF; rewrite (G1 F HF); reflexivity..|apply ap_fuel].
  destruct (@idx EvalError _ vs 0) as [v|?| |] eqn:Ei; cbn [bind];
    [|right; exists F1; intros F HF; rewrite (G1 F HF); cbn [bind]; rewrite Ei; reflexivity..|apply ap_fuel].
  destruct v; cbn [bind];
    [right; exists F1; intros F HF; rewrite (G1 F HF); cbn [bind]; rewrite Ei; reflexivity..|].
  unfold find_roots at 1; cbn [rf_combinations rf_expressions rf_context rf_search_vars].
  match goal with |- ap (comb_loop ev ?cs _ ?c1 _) _ =>
    destruct (comb_loop_lim cs (e0 :: es) (e0' :: es') c1 (fold_left remove_var sv (fold_left (fun c n => add_var c (mkVar n [Scalar nprobe])) sv c')) sv) as [E|[F2 G2]] end; auto.
  - apply fold_remove_lim; auto.
  - rewrite E. apply ap_fuel.
  - right. exists (max F1 F2). intros F HF. rewrite (G1 F) by lia. cbn [bind]. rewrite Ei. cbn [bind]. unfold find_roots; cbn [rf_combinations rf_expressions rf_context rf_search_vars]. apply G2. lia.
Qed.
End Lim.
