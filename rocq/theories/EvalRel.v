(** * EvalRel: evaluating two related terms in two related contexts.

    A generalisation of [EvalFuel]: the integration, differentiation and
    root finding loops take related inputs to related outcomes. *)
From Coq Require Import List NArith ZArith Bool Lia Arith.
From Verif Require Import Base BaseFacts F64 Num Types Maths Helpers Parser Eval EvalFuel.
Import ListNotations.

Section Rel.
Context {N : Num} {En : Env}.
Notation V := (Value N).
Variables ev ev' : AST N -> Ctx N -> res EvalError (list V).
(** Related terms, related contexts, and the names that may be bound. *)
Variable ar : AST N -> AST N -> Prop.
Variable cr : Ctx N -> Ctx N -> Prop.
Variable P : str -> Prop.
Hypothesis Hev : forall b b' c c', ar b b' -> cr c c' -> rle (ev b c) (ev' b' c').
Hypothesis Hq : forall x y c c', cr c c' -> rle (ev (quotient_ast x y) c) (ev' (quotient_ast x y) c').
Hypothesis cr_add : forall c c' v, P (var_name v) -> cr c c' -> cr (add_var c v) (add_var c' v).
Hypothesis cr_remove : forall c c' n, P n -> cr c c' -> cr (remove_var c n) (remove_var c' n).
Hypothesis cr_app : forall c c' l, (forall v, In v l -> P (var_name v)) -> cr c c' -> cr (mkCtx (vars c ++ l) (funs c)) (mkCtx (vars c' ++ l) (funs c')).
Hypothesis cr_first : forall c c' x, P x -> cr c c' -> cr (mkCtx (remove_first x (vars c)) (funs c)) (mkCtx (remove_first x (vars c')) (funs c')).
Hypothesis cr_exists : forall c c' n, P n -> cr c c' ->
  existsb (fun v => str_eqb (var_name v) n) (vars c) = existsb (fun v => str_eqb (var_name v) n) (vars c').

Lemma integral_loop_rel f f' e e' x c c' dx ub b sums : ar e e' -> cr c c' -> P x -> f <= f' ->
  rle (integral_loop ev f e x c (remove_first x (vars c)) dx ub b sums)
      (integral_loop ev' f' e' x c' (remove_first x (vars c')) dx ub b sums).
Proof.
  intros He Hc Hx. revert f' b sums; induction f as [|f IH]; intros f' b sums Hf; cbn [integral_loop]; [apply rle_fuel|].
  destruct f' as [|f']; [lia|]. cbn [integral_loop]. destruct (nltb b ub); [|apply rle_refl].
  apply rle_bind.
  - apply Hev; [exact He|]. apply (cr_app (mkCtx (remove_first x (vars c)) (funs c)) (mkCtx (remove_first x (vars c')) (funs c'))); [|now apply cr_first].
    intros v [<-|[]]. exact Hx.
  - intros es. apply rle_bind; [apply rle_refl|]. intros s. apply IH. lia.
Qed.
Lemma integral_rel f f' e e' x l u c c' : ar e e' -> cr c c' -> P x -> f <= f' ->
  rle (calculate_integral ev f e x l u c) (calculate_integral ev' f' e' x l u c').
Proof.
  intros He Hc Hx Hf. unfold calculate_integral. destruct l; try apply rle_refl. destruct u; try apply rle_refl.
  destruct (neqb _ _); [apply rle_refl|]. destruct (nltb _ _); (apply rle_bind; [now apply integral_loop_rel|intros ?; apply rle_refl]).
Qed.
Lemma derivative_rel e e' x a c c' : ar e e' -> cr c c' -> P x ->
  rle (fst (calculate_derivative ev e x a c)) (fst (calculate_derivative ev' e' x a c')).
Proof.
  intros He Hc Hx. unfold calculate_derivative. destruct a; try apply rle_refl.
  assert (H1 : cr (add_var (remove_var c x) (mkVar x [Scalar s])) (add_var (remove_var c' x) (mkVar x [Scalar s]))) by auto.
  assert (H2 : cr (add_var (remove_var (add_var (remove_var c x) (mkVar x [Scalar s])) x) (mkVar x [Scalar (nadd s eps)]))
                  (add_var (remove_var (add_var (remove_var c' x) (mkVar x [Scalar s])) x) (mkVar x [Scalar (nadd s eps)]))) by auto.
  destruct (Hev _ _ _ _ He H1) as [-> | ->]; [apply rle_fuel|]. destruct (ev' e' _) as [fxs|er| |]; try apply rle_refl.
  destruct (Hev _ _ _ _ He H2) as [-> | ->]; [apply rle_fuel|]. destruct (ev' e' _) as [fxhs|er| |]; try apply rle_refl.
  destruct (negb _); [apply rle_refl|].
  match goal with |- rle (fst (match mapM ?f ?l with _ => _ end)) (fst (match mapM ?f' _ with _ => _ end)) =>
    assert (H : rle (mapM f l) (mapM f' l)) by (apply rle_mapM; intros; now apply Hq) end.
  destruct H as [H|H]; rewrite H; [apply rle_fuel|]. match goal with |- rle (fst (match ?m with _ => _ end)) _ => destruct m end; apply rle_refl.
Qed.
Lemma derivative_newton_rel e e' x a fx c c' : ar e e' -> cr c c' -> P x ->
  rle (calculate_derivative_newton ev e x a fx c) (calculate_derivative_newton ev' e' x a fx c').
Proof.
  intros He Hc Hx. unfold calculate_derivative_newton. destruct a; try apply rle_refl.
  apply rle_bind.
  - destruct fx; [apply rle_refl|]. apply rle_bind; [apply Hev; auto|intros; apply rle_refl].
  - intros v. apply rle_bind; [apply Hev; auto|]. intros vs. apply rle_bind; [apply rle_refl|]. intros w.
    apply rle_bind; [apply Hq; auto|intros; apply rle_refl].
Qed.

Lemma idx_rel s s' i : Forall2 ar s s' ->
  (exists e e', @idx EvalError _ s i = Ok e /\ @idx EvalError _ s' i = Ok e' /\ ar e e') \/ (@idx EvalError _ s i = Panic /\ @idx EvalError _ s' i = Panic).
Proof.
  intros H. unfold idx. revert i. induction H as [|e e' s s' He H IH]; intros [|i]; cbn; auto. left. eauto.
Qed.
Lemma F2_length {A B} (R : A -> B -> Prop) l l' : Forall2 R l l' -> List.length l = List.length l'.
Proof. induction 1; cbn; auto. Qed.

Definition P_all (x : list (MVar N)) : Prop := forall v, In v x -> P (var_name v).
Lemma in_others j (x : list (MVar N)) v : In v (others j x) -> In v x.
Proof.
  unfold others. rewrite in_app_iff. intros [H|H].
  - rewrite <- (firstn_skipn j x). apply in_app_iff. now left.
  - rewrite <- (firstn_skipn (S j) x). apply in_app_iff. now right.
Qed.
Lemma jacobi_rel s s' x c c' fx : Forall2 ar s s' -> cr c c' -> P_all x ->
  rle (jacobi_and_gauss ev s x c fx) (jacobi_and_gauss ev' s' x c' fx).
Proof.
  intros Hs Hc Hx. unfold jacobi_and_gauss. rewrite <- (F2_length _ _ _ Hs). apply rle_bind; [|intros; apply rle_refl].
  apply rle_mapM. intros i. destruct (idx_rel s s' i Hs) as [(e & e' & E & E' & He)|[E E']]; rewrite E, E'; cbn [bind]; [|apply rle_refl].
  apply rle_bind; [|intros; apply rle_refl]. apply rle_mapM. intros j.
  destruct (@idx EvalError _ x j) as [xj|er| |] eqn:Ex; cbn [bind]; try apply rle_refl.
  assert (Hj : P (var_name xj)).
  { apply Hx. unfold idx in Ex. destruct (nth_error x j) eqn:E2; [|discriminate]. injection Ex as <-. eapply nth_error_In; eauto. }
  apply rle_bind; [apply rle_refl|]. intros at_. apply rle_bind; [apply rle_refl|]. intros f.
  apply rle_bind; [|intros; apply rle_refl]. apply derivative_newton_rel; auto. apply cr_app; [|exact Hc]. intros v Hv. apply Hx. eapply in_others; eauto.
Qed.
Lemma eval_scalars_rel s s' c c' : Forall2 ar s s' -> cr c c' -> rle (mapM (eval_scalar ev c) s) (mapM (eval_scalar ev' c') s').
Proof.
  intros H Hc. induction H as [|e e' s s' He H IH]; cbn [mapM]; [apply rle_refl|].
  apply rle_bind; [unfold eval_scalar; apply rle_bind; [now apply Hev|intros; apply rle_refl]|].
  intros y. apply rle_bind; [exact IH|intros; apply rle_refl].
Qed.
Lemma cr_add_all x c c' : P_all x -> cr c c' -> cr (add_all c x) (add_all c' x).
Proof. revert c c'; induction x as [|v x IH]; intros c c' Hx Hc; cbn; auto. apply IH; [intros w Hw; apply Hx; now right|]. apply cr_add; auto. apply Hx; now left. Qed.
Lemma cr_remove_all x c c' : P_all x -> cr c c' -> cr (remove_all c x) (remove_all c' x).
Proof. revert c c'; induction x as [|v x IH]; intros c c' Hx Hc; cbn; auto. apply IH; [intros w Hw; apply Hx; now right|]. apply cr_remove; auto. apply Hx; now left. Qed.

(** Outcomes paired with contexts. *)
Definition pr {E A} (p p' : res E A * Ctx N) : Prop := fst p = Fuel \/ (fst p = fst p' /\ cr (snd p) (snd p')).
Lemma newton_rel s s' k k' x c c' : Forall2 ar s s' -> Forall2 ar k k' -> cr c c' -> P_all x ->
  pr (newton ev s k x c) (newton ev' s' k' x c').
Proof.
  intros Hs Hk Hc Hx. unfold newton.
  assert (H1 := cr_add_all x _ _ Hx Hc). assert (H2 := cr_remove_all x _ _ Hx H1).
  assert (H3 := cr_add_all x _ _ Hx H2). assert (H4 := cr_remove_all x _ _ Hx H3).
  destruct (eval_scalars_rel _ _ _ _ Hs H1) as [E|E]; rewrite E; [now left|].
  destruct (mapM (eval_scalar ev' _) s') as [fx|er| |]; try (right; split; [reflexivity|assumption]).
  destruct (small fx).
  - destruct (eval_scalars_rel _ _ _ _ Hk H3) as [E1|E1]; rewrite E1; [now left|].
    destruct (mapM _ k') as [l|er| |]; try (right; split; [reflexivity|assumption]).
    destruct l; [right; split; [reflexivity|assumption]|]. destruct (small _); right; split; auto.
  - destruct (jacobi_rel s s' x _ _ fx Hs H2 Hx) as [E1|E1]; rewrite E1; [now left|].
    destruct (jacobi_and_gauss ev' _ _ _ _); try (right; split; [reflexivity|assumption]).
    clear E E1. match goal with |- context [mapM ?f ?l] => destruct (mapM f l) end; try (right; split; [reflexivity|assumption]). destruct (existsb _ _); right; split; auto.
Qed.
(** A Newton step keeps the names of the variables. *)
Lemma jacobi_names s x c fx y : jacobi_and_gauss ev' s x c fx = Ok y -> forall v, In v y -> exists w, In w x /\ var_name v = var_name w.
Proof.
  unfold jacobi_and_gauss. intros H. destruct (mapM _ (seq 0 (List.length s))) as [jac|?| |]; try discriminate. cbn [bind] in H.
  destruct (mapM _ (seq 0 (List.length jac))) as [aug|?| |]; try discriminate. cbn [bind] in H.
  destruct (gauss_algorithm aug) as [d|?| |]; try discriminate. cbn [bind] in H.
  revert H. generalize (seq 0 (List.length x)) as l. intros l. revert y. induction l as [|i l IH]; intros y H v Hv; cbn [mapM] in H.
  - injection H as <-. destruct Hv.
  - destruct (@idx EvalError _ x i) as [xi|?| |] eqn:Ei; cbn [bind] in H; try discriminate.
    destruct (@idx EvalError _ d i) as [di|?| |]; cbn [bind] in H; try discriminate.
    destruct (first_scalar xi) as [s0|?| |]; cbn [bind] in H; try discriminate.
    match type of H with bind ?m _ = _ => destruct m as [t|?| |] eqn:Em end; cbn [bind] in H; try discriminate.
    injection H as <-. destruct Hv as [<-|Hv]; [|eapply IH; eauto].
    exists xi. split; [|reflexivity]. unfold idx in Ei. destruct (nth_error x i) eqn:E2; [|discriminate]. injection Ei as <-. eapply nth_error_In; eauto.
Qed.
Lemma newton_names s k x c y c1 : newton ev' s k x c = (Ok (NextX y), c1) -> P_all x -> P_all y.
Proof.
  unfold newton. intros H Hx v Hv. destruct (mapM (eval_scalar ev' _) s) as [fx|?| |]; try discriminate.
  destruct (small fx).
  - destruct (mapM _ k) as [[|? ?]|?| |]; try discriminate. destruct (small _); discriminate.
  - destruct (jacobi_and_gauss ev' _ _ _ _) as [z|?| |] eqn:E; try discriminate. destruct (mapM _ _) as [b|?| |]; try discriminate.
    destruct (existsb _ _); try discriminate. injection H as -> _. destruct (jacobi_names _ _ _ _ _ E v Hv) as (w & Hw & ->). now apply Hx.
Qed.
Lemma newton_loop_rel n s s' k k' : Forall2 ar s s' -> Forall2 ar k k' -> forall x c c', cr c c' -> P_all x ->
  match newton_loop ev n s k x c, newton_loop ev' n s' k' x c' with
  | Fuel, _ => True
  | Ok a, Ok b => fst a = fst b /\ cr (snd a) (snd b)
  | Err e, Err e' => e = e'
  | Panic, Panic => True
  | _, _ => False
  end.
Proof.
  intros Hs Hk. induction n as [|n IH]; intros x c c' Hc Hx; cbn [newton_loop]; [auto|].
  destruct (newton_rel s s' k k' x c c' Hs Hk Hc Hx) as [H|[H1 H2]].
  - destruct (newton ev s k x c) as [r d]; cbn in H; subst r. exact I.
  - destruct (newton ev s k x c) as [r d]. destruct (newton ev' s' k' x c') as [r' d'] eqn:En'. cbn in H1, H2. subst r'.
    destruct r as [[y|y]|er| |]; auto.
    + apply IH; auto. eapply newton_names; eauto.
    + destruct (mapM first_scalar y) as [rs|?| |]; cbn [bind]; auto. destruct rs as [|? [|? ?]]; cbn; auto.
    + destruct er; cbn; auto.
Qed.
Lemma start_loop_rel js s s' k k' sv c c' r : Forall2 ar s s' -> Forall2 ar k k' -> cr c c' -> (forall n, In n sv -> P n) ->
  rle (start_loop ev js s k sv c r) (start_loop ev' js s' k' sv c' r).
Proof.
  intros Hs Hk Hc Hsv. revert c c' r Hc; induction js as [|j js IH]; intros c c' r Hc; cbn [start_loop]; [apply rle_refl|].
  assert (Hx : P_all (map (fun k => mkVar k [Scalar (nof_Z j)]) sv)).
  { intros v Hv. apply in_map_iff in Hv as (n & <- & Hn). cbn. auto. }
  pose proof (newton_loop_rel 1000 s s' k k' Hs Hk _ c c' Hc Hx) as H.
  destruct (newton_loop ev 1000 s k _ c) as [[[v stop] d]|?| |], (newton_loop ev' 1000 s' k' _ c') as [[[v' stop'] d']|?| |];
    cbn [bind]; try contradiction; try apply rle_fuel; try apply rle_refl.
  - destruct H as [H1 H2]; cbn in H1, H2. injection H1 as <- <-. destruct stop; [apply rle_refl|]. now apply IH.
  - subst. apply rle_refl.
Qed.
Lemma F2_firstn {A B} (R : A -> B -> Prop) n : forall l l', Forall2 R l l' -> Forall2 R (firstn n l) (firstn n l').
Proof. induction n as [|n IH]; intros l l' H; [constructor|]. destruct H; cbn; constructor; auto. Qed.
Lemma F2_skipn {A B} (R : A -> B -> Prop) n : forall l l', Forall2 R l l' -> Forall2 R (skipn n l) (skipn n l').
Proof. induction n as [|n IH]; intros l l' H; [exact H|]. destruct H; cbn; [constructor|auto]. Qed.
Lemma split_rel es es' comb : Forall2 ar es es' ->
  (exists s s' k k', split_exprs es comb = Ok (s, k) /\ split_exprs es' comb = Ok (s', k') /\ Forall2 ar s s' /\ Forall2 ar k k')
  \/ (split_exprs es comb = Panic /\ split_exprs es' comb = Panic).
Proof.
  intros H. unfold split_exprs.
  assert (G : forall comb s s' k k' n, Forall2 ar s s' -> Forall2 ar k k' ->
    let step := (fun (s : list (AST N) * list (AST N) * nat) j =>
            let '(search, check, removed) := s in
            if Nat.ltb j removed then Panic
            else do xr <- take_at (j - removed) check;
                 @Ok EvalError _ (search ++ [fst xr], snd xr, S removed)) in
    (exists s1 s1' k1 k1' m, foldM step comb (s, k, n) = Ok (s1, k1, m) /\ foldM step comb (s', k', n) = Ok (s1', k1', m) /\ Forall2 ar s1 s1' /\ Forall2 ar k1 k1')
    \/ (foldM step comb (s, k, n) = Panic /\ foldM step comb (s', k', n) = Panic)).
  { clear H. induction comb0 as [|j cb IH]; intros s s' k k' n Hs Hk; cbn [foldM]; [left; repeat eexists; eauto|].
    destruct (Nat.ltb j n); [now right|]. unfold take_at.
    destruct (idx_rel k k' (j - n) Hk) as [(e & e' & E & E' & He)|[E E']]; rewrite E, E'; cbn [bind]; [|now right].
    apply IH; [apply Forall2_app; auto|]. cbn [snd]. apply Forall2_app; [now apply F2_firstn|now apply (F2_skipn _ (S (j - n)))]. }
  destruct (G comb [] [] es es' 0 (Forall2_nil _) H) as [(s1 & s1' & k1 & k1' & m & E & E' & H1 & H2)|[E E']]; rewrite E, E'; cbn [bind fst].
  - left. exists s1, s1', k1, k1'. auto.
  - now right.
Qed.
Lemma comb_loop_rel cs es es' c c' sv : Forall2 ar es es' -> cr c c' -> (forall n, In n sv -> P n) ->
  rle (comb_loop ev cs es c sv) (comb_loop ev' cs es' c' sv).
Proof.
  intros He Hc Hsv. induction cs as [|i cs IH]; cbn [comb_loop]; [apply rle_refl|].
  destruct (split_rel es es' i He) as [(s & s' & k & k' & E & E' & H1 & H2)|[E E']]; rewrite E, E'; cbn [bind fst snd]; [|apply rle_refl].
  apply rle_bind; [now apply start_loop_rel|]. intros rs. apply rle_bind; [apply rle_refl|]. intros [|? ?]; [exact IH|apply rle_refl].
Qed.
Lemma fold_add_rel (sv : list str) c c' : (forall n, In n sv -> P n) -> cr c c' ->
  cr (fold_left (fun c n => add_var c (mkVar n [Scalar nprobe])) sv c) (fold_left (fun c n => add_var c (mkVar n [Scalar nprobe])) sv c').
Proof. revert c c'; induction sv as [|n sv IH]; intros c c' H Hc; cbn; auto. apply IH; [intros; apply H; now right|]. apply cr_add; auto. apply H; now left. Qed.
Lemma fold_remove_rel (sv : list str) c c' : (forall n, In n sv -> P n) -> cr c c' -> cr (fold_left remove_var sv c) (fold_left remove_var sv c').
Proof. revert c c'; induction sv as [|n sv IH]; intros c c' H Hc; cbn; auto. apply IH; [intros; apply H; now right|]. apply cr_remove; auto. apply H; now left. Qed.

Lemma solve_rel es es' c c' sv : Forall2 ar es es' -> (forall e e', ar e e' -> In e es -> In e' es' -> is_operation e = is_operation e') ->
  cr c c' -> (forall n, In n sv -> P n) ->
  rle (do rf <- rf_new ev es c sv; find_roots ev rf) (do rf <- rf_new ev' es' c' sv; find_roots ev' rf).
Proof.
  intros He Hop Hc Hsv. unfold rf_new.
  assert (Hb : forallb is_operation es = forallb is_operation es').
  { clear - He Hop. induction He as [|e e' es es' H He IH]; [reflexivity|]. cbn. rewrite (Hop e e') by (auto; now left). f_equal. apply IH. intros; apply Hop; auto; now right. }
  pose proof (F2_length _ _ _ He) as Hlen.
  destruct He as [|e0 e0' es es' H0 He]; [cbn [bind]; apply rle_refl|].
  rewrite <- Hb. destruct (negb _); [cbn [bind]; apply rle_refl|].
  assert (Ex : existsb (fun n => existsb (fun v => str_eqb (var_name v) n) (vars c)) sv =
               existsb (fun n => existsb (fun v => str_eqb (var_name v) n) (vars c')) sv).
  { clear - Hsv Hc cr_exists. induction sv as [|n sv IH]; cbn; [reflexivity|].
    rewrite (cr_exists c c' n) by (auto; apply Hsv; now left). f_equal. apply IH. intros; apply Hsv; now right. }
  rewrite <- Ex. destruct (existsb _ _); [cbn [bind]; apply rle_refl|]. rewrite <- Hlen. destruct (Nat.ltb _ (List.length sv)); [cbn [bind]; apply rle_refl|].
  pose proof (fold_add_rel sv c c' Hsv Hc) as Hc1.
  destruct (Hev _ _ _ _ H0 Hc1) as [E|E]; rewrite E; cbn [bind]; [apply rle_fuel|].
  destruct (ev' e0' _) as [vs|?| |]; cbn [bind]; [|apply rle_refl..].
  destruct (@idx EvalError _ vs 0) as [v|?| |]; cbn [bind]; [|apply rle_refl..].
  destruct v; cbn [bind]; [apply rle_refl|apply rle_refl|].
  unfold find_roots; cbn [rf_combinations rf_expressions rf_context rf_search_vars]. apply comb_loop_rel; auto. apply fold_remove_rel; auto.
Qed.
End Rel.
