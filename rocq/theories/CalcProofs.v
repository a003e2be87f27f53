(** * CalcProofs: integrals and derivatives. *)
From Coq Require Import List NArith ZArith Bool Lia Arith String.
From Verif Require Import Base BaseFacts F64 Num Types Maths Helpers Parser Eval EvalFuel SpecEval EvalProofs EvalTotal CalcSpec.
Import ListNotations.

Section Calc.
Context {N : Num} {En : Env}.
Notation V := (Value N).


Lemma filter_all {A} (p : A -> bool) l : (forall x, In x l -> p x = true) -> filter p l = l.
Proof. induction l as [|x l IH]; intros H; [reflexivity|]. cbn. rewrite H by now left. f_equal. apply IH. intros; apply H; now right. Qed.
Lemma remove_first_filter x (l : list (MVar N)) : NoDup (map var_name l) ->
  remove_first x l = filter (fun w => negb (str_eqb (var_name w) x)) l.
Proof.
  induction l as [|v l IH]; intros H; [reflexivity|]. cbn. inversion H as [|? ? Hv Hl]; subst.
  destruct (str_eqb_spec (var_name v) x) as [E|E]; cbn [negb]; [|f_equal; auto].
  symmetry. apply filter_all. intros w Hw. apply negb_true_iff, str_eqb_neq. intros Ew. apply Hv. rewrite E, <- Ew. now apply in_map.
Qed.
Lemma integral_ctx (c : Ctx N) x s : NoDup (map var_name (vars c)) ->
  mkCtx (remove_first x (vars c) ++ [mkVar x [Scalar s]]) (funs c) = set_num c x s.
Proof. intros H. unfold set_num, add_var. cbn. now rewrite remove_first_filter. Qed.
Lemma filter_idem {A} (p : A -> bool) l : filter p (filter p l) = filter p l.
Proof. apply filter_all. intros x Hx. now apply filter_In in Hx. Qed.
Lemma set_set c x s t : set_num (set_num c x s) x t = set_num c x t.
Proof.
  unfold set_num, add_var. cbn. f_equal. f_equal. rewrite filter_app, filter_idem. cbn. rewrite str_eqb_refl. cbn. now rewrite app_nil_r.
Qed.
Lemma add_remove c x vs : add_var (remove_var c x) (mkVar x vs) = add_var c (mkVar x vs).
Proof. unfold add_var, remove_var. cbn. now rewrite filter_idem. Qed.
Lemma set_hides c x vs s : set_num (add_var c (mkVar x vs)) x s = set_num c x s.
Proof.
  unfold set_num, add_var. cbn. f_equal. f_equal. rewrite filter_app, filter_idem. cbn. rewrite str_eqb_refl. cbn. now rewrite app_nil_r.
Qed.

(** ** Derivatives *)

Lemma single_left {A} (r : res string A) : rmap (fun v => [v]) r = bind r (fun v => Ok [v]).
Proof. reflexivity. Qed.
Lemma concatM_one {E A B} (f : A -> res E (list B)) x : concatM f [x] = f x.
Proof. unfold concatM. cbn. destruct (f x); cbn; try reflexivity. now rewrite app_nil_r. Qed.
Lemma quotient_outcome l c (fxh fx : V) : quotient fxh fx <> Fuel ->
  outcome_in l (quotient_ast fxh fx) c (mathe (rmap (fun v => [v]) (quotient fxh fx))).
Proof.
  intros Hq. split; [unfold mathe, rmap; destruct (quotient fxh fx); cbn; try discriminate; congruence|].
  destruct (from_value_outcome l c fxh) as [_ [f1 H1]]. destruct (from_value_outcome l c fx) as [_ [f2 H2]].
  exists (S (S (Nat.max f1 f2))). intros f Hf. destruct f as [|[|f]]; try lia. unfold quotient_ast. cbn [eval_rec].
  rewrite (H1 f), (H2 f) by lia. cbn [bind]. rewrite !concatM_one, !apply_op_meaning. cbn [op_meaning].
  unfold single, quotient. destruct (sub fxh fx) as [d|e| |]; cbn [bind rmap mathe map_err]; try reflexivity.
  rewrite !concatM_one, apply_op_meaning. reflexivity.
Qed.

Lemma bind_concat_singletons {E A B} (g : A -> res E (list B)) (h : A -> res E B) l :
  (forall x, In x l -> g x = rmap (fun v => [v]) (h x)) ->
  rmap (@List.concat B) (mapM g l) = mapM h l.
Proof.
  induction l as [|x l IH]; intros H; [reflexivity|]. cbn [mapM]. rewrite H by now left.
  unfold rmap in *. destruct (h x); cbn [bind]; try reflexivity.
  rewrite <- IH by (intros; apply H; now right). destruct (mapM g l); reflexivity.
Qed.

Lemma mathe_rmap {A B} (f : A -> B) (r : res string A) : mathe (rmap f r) = rmap f (mathe r).
Proof. destruct r; reflexivity. Qed.

Lemma evto_mapM_gen {E A B} (g : nat -> A -> res E B) (h : A -> res E B) l :
  (forall x, In x l -> evto (fun f => g f x) (h x)) -> evto (fun f => mapM (g f) l) (mapM h l).
Proof.
  induction l as [|x l IH]; intros H; [exists 0; reflexivity|].
  destruct (H x (or_introl eq_refl)) as [F1 H1]. destruct IH as [F2 H2]; [intros; apply H; now right|].
  exists (Nat.max F1 F2). intros f Hf. cbn [mapM]. rewrite H1, H2 by lia. reflexivity.
Qed.

Lemma derivative_evto (e : AST N) x (s : T) c fxs fxhs :
  outcome e (set_num c x s) (Ok fxs) -> outcome e (set_num c x (nadd s eps)) (Ok fxhs) ->
  List.length fxs = List.length fxhs ->
  (forall p, In p (combine fxs fxhs) -> quotient (snd p) (fst p) <> Fuel) ->
  evto (fun f => fst (calculate_derivative (fun b c => eval_rec f b c []) e x (Scalar s) c))
    (mapM (fun p => mathe (quotient (snd p) (fst p))) (combine fxs fxhs)).
Proof.
  intros [_ [f1 H1]] [_ [f2 H2]] Hl Hq. set (c2 := set_num c x (nadd s eps)).
  destruct (evto_mapM_gen (fun f p => eval_rec f (quotient_ast (snd p) (fst p)) c2 [])
    (fun p => mathe (rmap (fun v => [v]) (quotient (snd p) (fst p)))) (combine fxs fxhs)) as [f3 H3].
  { intros p Hp. apply quotient_outcome. auto. }
  exists (Nat.max f1 (Nat.max f2 f3)). intros f Hf. unfold calculate_derivative.
  rewrite add_remove. fold (set_num c x s). unfold eval in H1, H2. rewrite H1 by lia.
  rewrite add_remove. fold (set_num (set_num c x s) x (nadd s eps)). rewrite set_set. rewrite H2 by lia. fold c2.
  rewrite Hl, Nat.eqb_refl. cbn [negb]. rewrite (H3 f) by lia.
  rewrite <- (bind_concat_singletons (fun p => mathe (rmap (fun v => [v]) (quotient (snd p) (fst p)))) _ (combine fxs fxhs)
                (fun p _ => mathe_rmap _ _)).
  destruct (mapM _ (combine fxs fxhs)); reflexivity.
Qed.

Lemma derivative_outcome l (e at_ : AST N) x (s : T) c fxs fxhs :
  outcome_in l at_ c (Ok [Scalar s]) ->
  outcome e (set_num c x s) (Ok fxs) -> outcome e (set_num c x (nadd s eps)) (Ok fxhs) ->
  List.length fxs = List.length fxhs ->
  (forall p, In p (combine fxs fxhs) -> quotient (snd p) (fst p) <> Fuel) ->
  outcome_in l (ADer e x at_) c (mapM (fun p => mathe (quotient (snd p) (fst p))) (combine fxs fxhs)).
Proof.
  intros [_ [f1 H1]] He Heh Hl Hq. destruct (derivative_evto e x s c fxs fxhs He Heh Hl Hq) as [f2 H2]. split.
  - apply mapM_no_fuel. intros p Hp. specialize (Hq p Hp). unfold mathe. destruct (quotient (snd p) (fst p)); cbn; congruence.
  - apply evto_S. exists (Nat.max f1 f2). intros f Hf. cbn [eval_rec]. rewrite H1 by lia. cbn [bind]. rewrite concatM_one. now rewrite H2 by lia.
Qed.

(** ** Integrals *)

Lemma integral_loop_evto (e : AST N) x c dx ub p ps ss :
  NoDup (map var_name (vars c)) ->
  visits dx ub p ps ->
  Forall2 (fun q s => outcome e (set_num c x (sample dx q)) (Ok [Scalar s])) ps ss ->
  exists F, forall f n, F <= f -> List.length ps < n -> forall sums,
    integral_loop (fun b c => eval_rec f b c []) n e x c (remove_first x (vars c)) dx ub p sums =
    match sums with
    | [] => match ss with [] => Ok [] | s0 :: ss => Ok [Scalar (fold_left nadd ss s0)] end
    | Scalar s0 :: rest => Ok (Scalar (fold_left nadd ss s0) :: rest)
    | other => match ss with [] => Ok sums | _ => integral_loop (fun b c => eval_rec f b c []) n e x c (remove_first x (vars c)) dx ub p sums end
    end.
Proof.
  intros Hc Hv. revert ss; induction Hv as [p Hp|p ps Hp Hv IH]; intros ss H.
  - inversion H; subst. exists 0. intros f [|n] _ Hn sums; [cbn in Hn; lia|]. cbn [integral_loop]. rewrite Hp.
    destruct sums as [|[| |] ?]; reflexivity.
  - inversion H as [|? s ? ss' Hs Hss]; subst. destruct (IH ss' Hss) as [F1 H1]. destruct Hs as [_ [F2 H2]].
    exists (Nat.max F1 F2). intros f [|n] Hf Hn sums; [cbn in Hn; lia|]. cbn in Hn.
    destruct sums as [|[m|v|s0] rest]; try reflexivity.
    + cbn [integral_loop]. rewrite Hp. fold (sample dx p). rewrite integral_ctx by assumption.
      unfold eval in H2. rewrite H2 by lia. cbn [bind add_samples].
      rewrite H1 by lia. reflexivity.
    + cbn [integral_loop]. rewrite Hp. fold (sample dx p). rewrite integral_ctx by assumption.
      unfold eval in H2. rewrite H2 by lia. cbn [bind add_samples add sadd mathe map_err].
      rewrite H1 by lia. reflexivity.
Qed.

Lemma integral_outcome l (e la lb : AST N) x a b c ps s0 ss :
  NoDup (map var_name (vars c)) ->
  outcome_in l la c (Ok [Scalar a]) -> outcome_in l lb c (Ok [Scalar b]) ->
  neqb a b = false -> nltb b a = false ->
  visits (width a b) b a ps ->
  Forall2 (fun q s => outcome e (set_num c x (sample (width a b) q)) (Ok [Scalar s])) ps (s0 :: ss) ->
  outcome_in l (AInt e x la lb) c (Ok [Scalar (nmul (fold_left nadd ss s0) (width a b))]).
Proof.
  intros Hc [_ [f1 H1]] [_ [f2 H2]] Hab Hba Hv Hs. split; [discriminate|].
  destruct (integral_loop_evto e x c (width a b) b a ps (s0 :: ss) Hc Hv Hs) as [f3 H3].
  apply evto_S. exists (Nat.max f1 (Nat.max f2 (Nat.max f3 (S (List.length ps))))). intros f Hf. cbn [eval_rec].
  rewrite H1, H2 by lia. cbn [bind]. rewrite !concatM_one. unfold calculate_integral. rewrite Hab, Hba.
  fold (width a b). rewrite H3 by lia. reflexivity.
Qed.

Lemma visits_leads dx ub p ps : visits dx ub p ps -> forall q, In q ps -> leads dx ub p q /\ nltb q ub = true.
Proof.
  induction 1 as [p H|p ps H Hv IH]; intros q [].
  - subst. split; [constructor|assumption].
  - destruct (IH q H0). split; [now apply L_step|assumption].
Qed.

Lemma add_samples_nofuel (sums es : list V) : add_samples sums es <> Fuel.
Proof.
  revert sums; induction es as [|e es IH]; intros [|s sums]; cbn; try discriminate.
  - pose proof (IH []) as H. destruct (add_samples [] es); cbn; congruence.
  - pose proof (op_meaning_nofuel OAdd s e) as Ha. cbn [op_meaning] in Ha. unfold single, rmap in Ha.
    pose proof (IH sums) as H. destruct (add s e); cbn in *; try discriminate; [|contradiction].
    destruct (add_samples sums es); cbn; congruence.
Qed.

Lemma integral_loop_terminates (e : AST N) x c dx ub p ps :
  NoDup (map var_name (vars c)) ->
  visits dx ub p ps ->
  (forall q, In q ps -> exists r, outcome e (set_num c x (sample dx q)) r) ->
  forall sums, exists r F, r <> Fuel /\ forall f n, F <= f -> F <= n ->
    integral_loop (fun b c => eval_rec f b c []) n e x c (remove_first x (vars c)) dx ub p sums = r.
Proof.
  intros Hc Hv. induction Hv as [p Hp|p ps Hp Hv IH]; intros H sums.
  - exists (Ok sums), 1. split; [discriminate|]. intros f [|n] _ Hn; [lia|]. cbn [integral_loop]. now rewrite Hp.
  - destruct (H p (or_introl eq_refl)) as (re & Hr & F1 & H1). unfold eval in H1.
    destruct re as [es|er| |]; [|exists (Err er), (S F1)|exists Panic, (S F1)|congruence].
    + destruct (add_samples sums es) as [sums'|er| |] eqn:Ea;
        [|exists (Err er), (S F1)|exists Panic, (S F1)|now apply add_samples_nofuel in Ea].
      * destruct (IH (fun q Hq => H q (or_intror Hq)) sums') as (r & F2 & Hr2 & H2).
        exists r, (S (Nat.max F1 F2)). split; [assumption|]. intros f [|n] Hf Hn; [lia|].
        cbn [integral_loop]. rewrite Hp. fold (sample dx p). rewrite integral_ctx, H1 by (assumption || lia). cbn [bind]. rewrite Ea. cbn [bind]. apply H2; lia.
      * split; [discriminate|]. intros f [|n] Hf Hn; [lia|].
        cbn [integral_loop]. rewrite Hp. fold (sample dx p). rewrite integral_ctx, H1 by (assumption || lia). cbn [bind]. now rewrite Ea.
      * split; [discriminate|]. intros f [|n] Hf Hn; [lia|].
        cbn [integral_loop]. rewrite Hp. fold (sample dx p). rewrite integral_ctx, H1 by (assumption || lia). cbn [bind]. now rewrite Ea.
    + split; [discriminate|]. intros f [|n] Hf Hn; [lia|].
      cbn [integral_loop]. rewrite Hp. fold (sample dx p). now rewrite integral_ctx, H1 by (assumption || lia).
    + split; [discriminate|]. intros f [|n] Hf Hn; [lia|].
      cbn [integral_loop]. rewrite Hp. fold (sample dx p). now rewrite integral_ctx, H1 by (assumption || lia).
Qed.

Lemma integral_terminates l (e la lb : AST N) x a b c ps :
  NoDup (map var_name (vars c)) ->
  outcome_in l la c (Ok [Scalar a]) -> outcome_in l lb c (Ok [Scalar b]) ->
  neqb a b = false -> nltb b a = false ->
  visits (width a b) b a ps ->
  (forall q, In q ps -> exists r, outcome e (set_num c x (sample (width a b) q)) r) ->
  exists r, outcome_in l (AInt e x la lb) c r.
Proof.
  intros Hc [_ [f1 H1]] [_ [f2 H2]] Hab Hba Hv Hs.
  destruct (integral_loop_terminates e x c (width a b) b a ps Hc Hv Hs []) as (r & f3 & Hr & H3).
  exists (bind r (fun sums => mapM (fun s => mathe (mult s (Scalar (width a b)))) sums)). split.
  - destruct r as [sums| | |]; cbn; try congruence. apply mapM_no_fuel. intros v _.
    pose proof (op_meaning_nofuel OMult v (Scalar (width a b))) as Ha. cbn [op_meaning] in Ha. unfold single, rmap in Ha.
    destruct (mult v (Scalar (width a b))); cbn in *; try congruence; contradiction.
  - apply evto_S. exists (Nat.max f1 (Nat.max f2 f3)). intros f Hf. cbn [eval_rec].
    rewrite H1, H2 by lia. cbn [bind]. rewrite !concatM_one. unfold calculate_integral. rewrite Hab, Hba.
    fold (width a b). rewrite H3 by lia. reflexivity.
Qed.

Lemma outcome_at (b : AST N) c r f : outcome b c r -> eval f b c = Fuel \/ eval f b c = r.
Proof.
  intros H. destruct (eval f b c) eqn:E; auto; right; apply (outcome_unique b c); auto;
    rewrite <- E; (apply (outcome_intro f); [reflexivity|congruence]).
Qed.
Lemma outcome_in_at l (b : AST N) c r f : outcome_in l b c r -> eval_rec f b c l = Fuel \/ eval_rec f b c l = r.
Proof.
  intros H. destruct (eval_rec f b c l) eqn:E; auto; right; apply (outcome_in_unique l b c); auto;
    rewrite <- E; (apply (outcome_in_intro f); [reflexivity|congruence]).
Qed.

Definition scalar_sums (sums : list V) : Prop := sums = [] \/ exists s, sums = [Scalar s].
Lemma add_samples_scalar sums s : scalar_sums sums -> exists sums', add_samples sums [Scalar s] = Ok sums' /\ scalar_sums sums'.
Proof. intros [-> | [s0 ->]]; eexists; (split; [reflexivity|]); right; eauto. Qed.

Lemma integral_loop_stuck (e : AST N) x c dx ub p q f :
  NoDup (map var_name (vars c)) ->
  leads dx ub p q -> nltb q ub = true -> nadd q dx = q ->
  (forall q, leads dx ub p q -> nltb q ub = true -> exists s, outcome e (set_num c x (sample dx q)) (Ok [Scalar s])) ->
  forall n sums, scalar_sums sums ->
    integral_loop (fun b c => eval_rec f b c []) n e x c (remove_first x (vars c)) dx ub p sums = Fuel.
Proof.
  intros Hc Hl Hq Hst. induction Hl as [p|p q Hp Hl IH]; intros Hs n sums Hsum.
  - revert sums Hsum. induction n as [|n IHn]; intros sums Hsum; [reflexivity|].
    cbn [integral_loop]. rewrite Hq. fold (sample dx p). rewrite integral_ctx by assumption.
    destruct (Hs p (L_here _ _ _) Hq) as [s Ho].
    destruct (outcome_at e _ _ f Ho) as [E|E]; unfold eval in E; rewrite E; [reflexivity|]. cbn [bind].
    destruct (add_samples_scalar sums s Hsum) as (sums' & Ea & Hs'). rewrite Ea. cbn [bind]. rewrite Hst. now apply IHn.
  - destruct n as [|n]; [reflexivity|]. cbn [integral_loop]. rewrite Hp. fold (sample dx p). rewrite integral_ctx by assumption.
    destruct (Hs p (L_here _ _ _) Hp) as [s Ho].
    destruct (outcome_at e _ _ f Ho) as [E|E]; unfold eval in E; rewrite E; [reflexivity|]. cbn [bind].
    destruct (add_samples_scalar sums s Hsum) as (sums' & Ea & Hs'). rewrite Ea. cbn [bind]. apply IH; auto.
    intros q' Hl' Hq'. apply Hs; [now apply L_step|assumption].
Qed.

Lemma integral_diverges (e la lb : AST N) x a b c q :
  NoDup (map var_name (vars c)) ->
  outcome la c (Ok [Scalar a]) -> outcome lb c (Ok [Scalar b]) ->
  neqb a b = false -> nltb b a = false ->
  leads (width a b) b a q -> nltb q b = true -> nadd q (width a b) = q ->
  (forall q, leads (width a b) b a q -> nltb q b = true ->
     exists s, outcome e (set_num c x (sample (width a b) q)) (Ok [Scalar s])) ->
  diverges (AInt e x la lb) c.
Proof.
  intros Hc Ha Hb Hab Hba Hl Hq Hst Hs f. destruct f as [|f]; [reflexivity|]. unfold eval. cbn [eval_rec].
  destruct (outcome_at la _ _ f Ha) as [E|E]; unfold eval in E; rewrite E; [reflexivity|].
  destruct (outcome_at lb _ _ f Hb) as [E'|E']; unfold eval in E'; rewrite E'; [reflexivity|]. cbn [bind].
  rewrite !concatM_one. unfold calculate_integral. rewrite Hab, Hba. fold (width a b).
  rewrite (integral_loop_stuck e x c (width a b) b a q f Hc Hl Hq Hst Hs f [] (or_introl eq_refl)). reflexivity.
Qed.

(** ** Contexts that differ in the bound variable only *)
Lemma remove_first_end x vs (l : list (MVar N)) :
  remove_first x (filter (fun w => negb (str_eqb (var_name w) x)) l ++ [mkVar x vs]) = filter (fun w => negb (str_eqb (var_name w) x)) l.
Proof.
  induction l as [|v l IH]; cbn; [now rewrite str_eqb_refl|].
  destruct (str_eqb (var_name v) x) eqn:E; cbn; [exact IH|]. rewrite E. now rewrite IH.
Qed.
Lemma remove_first_hides (c : Ctx N) x vs : NoDup (map var_name (vars c)) ->
  remove_first x (vars (add_var c (mkVar x vs))) = remove_first x (vars c).
Proof. intros H. rewrite (remove_first_filter x (vars c) H). unfold add_var. cbn. apply remove_first_end. Qed.

Lemma integral_loop_funs ev n (e : AST N) x c c' vs dx ub p sums : funs c = funs c' ->
  integral_loop ev n e x c vs dx ub p sums = integral_loop ev n e x c' vs dx ub p sums.
Proof.
  intros H. revert p sums; induction n as [|n IH]; intros p sums; [reflexivity|]. cbn [integral_loop]. rewrite H.
  destruct (nltb p ub); [|reflexivity]. destruct (ev e _); cbn [bind]; try reflexivity.
  destruct (add_samples sums a); cbn [bind]; try reflexivity. apply IH.
Qed.
Lemma integral_hides ev n (e : AST N) x i j c vs : NoDup (map var_name (vars c)) ->
  calculate_integral ev n e x i j (add_var c (mkVar x vs)) = calculate_integral ev n e x i j c.
Proof.
  intros H. unfold calculate_integral. destruct i as [|?|s], j as [|?|t]; try reflexivity. destruct (neqb s t); [reflexivity|].
  destruct (nltb t s).
  all: rewrite remove_first_hides by assumption; now rewrite (integral_loop_funs _ _ _ _ (add_var c (mkVar x vs)) c) by reflexivity.
Qed.
Lemma derivative_hides ev (e : AST N) x i c vs :
  fst (calculate_derivative ev e x i (add_var c (mkVar x vs))) = fst (calculate_derivative ev e x i c).
Proof.
  unfold calculate_derivative. destruct i; try reflexivity.
  assert (E : remove_var (add_var c (mkVar x vs)) x = remove_var c x).
  { unfold remove_var, add_var. cbn. rewrite filter_app, filter_idem. cbn. rewrite str_eqb_refl. cbn. now rewrite app_nil_r. }
  now rewrite E.
Qed.

Lemma concatM_ext {E A B} (f g : A -> res E (list B)) l : (forall x, f x = g x) -> concatM f l = concatM g l.
Proof. intros H. unfold concatM. f_equal. induction l as [|x l IH]; cbn; [reflexivity|]. now rewrite H, IH. Qed.
Lemma hides_transfer l (b1 b2 : AST N) c1 c2 r :
  (exists F, forall f, F <= f -> eval_rec f b1 c1 l = eval_rec f b2 c2 l) ->
  outcome_in l b1 c1 r <-> outcome_in l b2 c2 r.
Proof.
  intros [F H]. split; intros [Hr [f0 H0]]; (split; [assumption|]); exists (Nat.max F f0); intros f Hf.
  - rewrite <- H by lia. apply H0; lia.
  - rewrite H by lia. apply H0; lia.
Qed.

Lemma integral_hides_outcome l (e la lb : AST N) x c vs ra rb r :
  NoDup (map var_name (vars c)) ->
  outcome_in l la c ra -> outcome_in l la (add_var c (mkVar x vs)) ra ->
  outcome_in l lb c rb -> outcome_in l lb (add_var c (mkVar x vs)) rb ->
  outcome_in l (AInt e x la lb) (add_var c (mkVar x vs)) r <-> outcome_in l (AInt e x la lb) c r.
Proof.
  intros Hc [_ [f1 H1]] [_ [f2 H2]] [_ [f3 H3]] [_ [f4 H4]]. apply hides_transfer.
  exists (S (Nat.max (Nat.max f1 f2) (Nat.max f3 f4))). intros [|f] Hf; [lia|]. cbn [eval_rec].
  rewrite H1, H2, H3, H4 by lia. destruct ra as [la'| | |]; cbn [bind]; try reflexivity.
  destruct rb as [lb'| | |]; cbn [bind]; try reflexivity.
  apply concatM_ext. intros i. apply concatM_ext. intros j. now apply integral_hides.
Qed.
Lemma derivative_hides_outcome l (e at_ : AST N) x c vs ra r :
  outcome_in l at_ c ra -> outcome_in l at_ (add_var c (mkVar x vs)) ra ->
  outcome_in l (ADer e x at_) (add_var c (mkVar x vs)) r <-> outcome_in l (ADer e x at_) c r.
Proof.
  intros [_ [f1 H1]] [_ [f2 H2]]. apply hides_transfer.
  exists (S (Nat.max f1 f2)). intros [|f] Hf; [lia|]. cbn [eval_rec].
  rewrite H1, H2 by lia. destruct ra as [la'| | |]; cbn [bind]; try reflexivity.
  apply concatM_ext. intros i. apply derivative_hides.
Qed.
End Calc.
