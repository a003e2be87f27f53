(** * SolveProofs: the equation solver, step by step. *)
From Coq Require Import List NArith ZArith Bool Lia Arith String Sorting.Permutation Sorting.Sorted.
From Verif Require Import Base BaseFacts F64 Num Types Maths Helpers Parser Eval EvalFuel SpecEval
  EvalProofs CalcSpec SolveSpec.
Import ListNotations.

Section Contexts.
Context {N : Num} {En : Env}.
Notation V := (Value N).

Definition named_in (ns : list str) (v : MVar N) : bool := existsb (str_eqb (var_name v)) ns.
Definition drop (ns : list str) (l : list (MVar N)) : list (MVar N) :=
  filter (fun v => negb (named_in ns v)) l.
Definition pvars (sv : list str) (xs : list T) : list (MVar N) :=
  map (fun p => mkVar (fst p) [Scalar (snd p)]) (combine sv xs).

Lemma filter_filter {A} (f g : A -> bool) l : filter f (filter g l) = filter (fun x => g x && f x)%bool l.
Proof.
  induction l as [|x l IH]; cbn; [reflexivity|]. destruct (g x); cbn; [destruct (f x); now rewrite IH|exact IH].
Qed.

Lemma drop_nil l : drop [] l = l.
Proof. unfold drop. induction l as [|v l IHl]; cbn [filter]; [reflexivity|]. cbn [named_in existsb negb]. now f_equal. Qed.

Lemma add_all_vars x (c : Ctx N) :
  add_all c x = mkCtx (drop (map var_name x) (vars c) ++ vars (add_all ctx_empty x)) (funs c).
Proof.
  assert (Hf : forall x (c : Ctx N), funs (add_all c x) = funs c).
  { clear; induction x as [|a x IH]; intros c; cbn; [reflexivity|]. apply (IH (add_var c a)). }
  assert (H : forall x (c : Ctx N), vars (add_all c x) = drop (map var_name x) (vars c) ++ vars (add_all ctx_empty x)).
  { clear; induction x as [|a x IH]; intros c.
    - cbn. now rewrite app_nil_r, drop_nil.
    - change (add_all c (a :: x)) with (add_all (add_var c a) x).
      change (add_all ctx_empty (a :: x)) with (add_all (add_var ctx_empty a) x).
      rewrite (IH (add_var c a)), (IH (add_var ctx_empty a)). cbn [vars add_var ctx_empty filter app].
      unfold drop at 1 2. rewrite !filter_app, app_assoc. f_equal. f_equal.
      rewrite filter_filter. unfold drop. apply filter_ext; intros v.
      unfold named_in. cbn [map existsb]. now rewrite negb_orb. }
  rewrite <- H, <- Hf with (x := x) (c := c). now destruct (add_all c x).
Qed.

Lemma remove_all_vars x (c : Ctx N) :
  remove_all c x = mkCtx (drop (map var_name x) (vars c)) (funs c).
Proof.
  revert c; induction x as [|a x IH]; intros c.
  - destruct c as [vs fs]. cbn [map]. now rewrite drop_nil.
  - change (remove_all c (a :: x)) with (remove_all (remove_var c (var_name a)) x).
    rewrite IH. cbn. f_equal. unfold drop. rewrite filter_filter. apply filter_ext; intros v.
    unfold named_in. cbn [map existsb]. now rewrite negb_orb.
Qed.

Lemma drop_drop ns l : drop ns (drop ns l) = drop ns l.
Proof.
  unfold drop. rewrite filter_filter. apply filter_ext; intros v. now rewrite andb_diag.
Qed.
Lemma drop_app ns l l' : drop ns (l ++ l') = drop ns l ++ drop ns l'.
Proof. apply filter_app. Qed.
Lemma drop_all ns l : (forall v, In v l -> In (var_name v) ns) -> drop ns l = [].
Proof.
  induction l as [|v l IH]; intros H; [reflexivity|]. unfold drop. cbn [filter].
  assert (Hv : named_in ns v = true).
  { apply existsb_exists. exists (var_name v). split; [apply H; now left|apply str_eqb_refl]. }
  rewrite Hv; cbn. apply IH. intros w Hw; apply H; now right.
Qed.
Lemma drop_none ns l : (forall v, In v l -> ~ In (var_name v) ns) -> drop ns l = l.
Proof.
  induction l as [|v l IH]; intros H; [reflexivity|]. unfold drop. cbn [filter].
  destruct (named_in ns v) eqn:Hv.
  - apply existsb_exists in Hv as (n & Hn & He). apply str_eqb_eq in He; subst n.
    exfalso; apply (H v); [now left|exact Hn].
  - cbn. f_equal. apply IH. intros w Hw; apply H; now right.
Qed.
Lemma add_all_names x v : In v (vars (add_all (ctx_empty : Ctx N) x)) -> In (var_name v) (map var_name x).
Proof.
  assert (H : forall x (c : Ctx N) v, In v (vars (add_all c x)) -> In v (vars c) \/ In (var_name v) (map var_name x)).
  { clear; induction x as [|a x IH]; intros c v Hv; cbn in *; [now left|].
    destruct (IH _ _ Hv) as [H|H]; [|now auto].
    cbn in H. apply in_app_iff in H as [H|[<-|[]]]; [|now auto].
    apply filter_In in H as [H _]; auto. }
  intros Hv. destruct (H _ _ _ Hv) as [[]|H']; exact H'.
Qed.

(** [c'] is [c0] apart from variables named in [sv]. *)
Definition based (sv : list str) (c0 c' : Ctx N) : Prop :=
  drop sv (vars c') = vars c0 /\ funs c' = funs c0.

Lemma based_base sv c0 c' : based sv c0 c' -> based sv c0 c0.
Proof. intros [H _]; split; [|reflexivity]. rewrite <- H at 1. now rewrite drop_drop. Qed.
Lemma based_add sv c0 c' x : based sv c0 c' -> map var_name x = sv ->
  add_all c' x = add_all c0 x /\ based sv c0 (add_all c' x).
Proof.
  intros Hb Hx. destruct (based_base _ _ _ Hb) as [H0 _]. destruct Hb as [H Hf].
  rewrite (add_all_vars x c'), (add_all_vars x c0), Hx, H, H0, Hf. split; [reflexivity|].
  split; cbn [vars funs]; [|reflexivity]. rewrite drop_app, H0.
  rewrite (drop_all sv); [apply app_nil_r|]. intros v Hv. apply add_all_names in Hv. now rewrite Hx in Hv.
Qed.
Lemma based_remove sv c0 c' x : based sv c0 c' -> map var_name x = sv -> based sv c0 (remove_all c' x).
Proof.
  intros [H Hf] Hx. rewrite remove_all_vars, Hx. split; cbn [vars funs]; [|exact Hf]. now rewrite drop_drop.
Qed.

Lemma set_nums_add_all c sv xs : set_nums c sv xs = add_all c (pvars sv xs).
Proof.
  unfold set_nums, pvars, add_all. revert c. induction (combine sv xs) as [|p l IH]; intros c; cbn; [reflexivity|].
  apply IH.
Qed.
Lemma pvars_names sv xs : List.length xs = List.length sv -> map var_name (pvars sv xs) = sv.
Proof.
  revert xs; induction sv as [|n sv IH]; intros [|x xs] H; cbn in *; try discriminate; [reflexivity|].
  f_equal. apply IH. lia.
Qed.
Lemma pvars_length sv xs : List.length xs = List.length sv -> List.length (pvars sv xs) = List.length sv.
Proof. intros H. unfold pvars. rewrite map_length, combine_length. lia. Qed.
Lemma pvars_nth sv xs i : List.length xs = List.length sv ->
  nth_error (pvars sv xs) i =
  match nth_error sv i, nth_error xs i with Some n, Some s => Some (mkVar n [Scalar s]) | _, _ => None end.
Proof.
  revert xs i; induction sv as [|n sv IH]; intros [|x xs] [|i] H; cbn in *; try discriminate; try reflexivity.
  apply IH; lia.
Qed.
Lemma pvars_scalars (sv : list str) xs : List.length xs = List.length sv ->
  mapM first_scalar (pvars sv xs) = Ok xs.
Proof.
  revert xs; induction sv as [|n sv IH]; intros [|x xs] H; try discriminate; [reflexivity|].
  injection H as H. apply IH in H. unfold pvars in *. cbn [combine map mapM]. rewrite H. reflexivity.
Qed.
Lemma pvars_start (sv : list str) (s : T) :
  map (fun k => mkVar k [Scalar s]) sv = pvars sv (repeat s (List.length sv)).
Proof. unfold pvars. induction sv as [|n sv IH]; cbn; [reflexivity|]. now f_equal. Qed.
End Contexts.

Section Newton.
Context {N : Num} {En : Env}.
Notation V := (Value N).
Variable ev : AST N -> Ctx N -> res EvalError (list V).

Definition ev_misses (c : Ctx N) (e : AST N) (s : T) : Prop := exists rest, ev e c = Ok (Scalar s :: rest).

Lemma eval_scalar_ok c e s : eval_scalar ev c e = Ok s <-> ev_misses c e s.
Proof.
  unfold eval_scalar, ev_misses. split.
  - intros H. apply bind_ok in H as (vs & Hv & H). apply bind_ok in H as (v & Hi & H).
    apply idx_ok in Hi. apply unwrap_ok in H. destruct vs as [|w vs]; [discriminate|].
    cbn in Hi. injection Hi as ->. destruct v; try discriminate. cbn in H. injection H as ->. eauto.
  - intros [rest ->]. reflexivity.
Qed.

Definition hit (search check : list (AST N)) (c : Ctx N) (rs ks : list T) : Prop :=
  Forall2 (ev_misses c) search rs /\ small rs = true /\
  Forall2 (ev_misses c) check ks /\ (check = [] \/ small ks = true).

Lemma newton_finished search check sv xs c0 c' x' c'' :
  based sv c0 c' -> List.length xs = List.length sv ->
  newton ev search check (pvars sv xs) c' = (Ok (FinishedX x'), c'') ->
  x' = pvars sv xs /\ based sv c0 c'' /\ exists rs ks, hit search check (set_nums c0 sv xs) rs ks.
Proof.
  intros Hb Hl H. unfold newton in H. pose proof (pvars_names sv xs Hl) as Hn.
  destruct (based_add _ _ _ _ Hb Hn) as [He Hb1].
  destruct (mapM (eval_scalar ev (add_all c' (pvars sv xs))) search) as [fx|e| |] eqn:Hf; try discriminate.
  pose proof (based_remove _ _ _ _ Hb1 Hn) as Hb2.
  destruct (small fx) eqn:Hs.
  - destruct (based_add _ _ _ _ Hb2 Hn) as [He3 Hb3].
    destruct (mapM (eval_scalar ev (add_all (remove_all (add_all c' (pvars sv xs)) (pvars sv xs)) (pvars sv xs))) check)
      as [cr|e| |] eqn:Hc; try discriminate.
    pose proof (based_remove _ _ _ _ Hb3 Hn) as Hb4.
    assert (Hhit : exists rs ks, Forall2 (ev_misses (set_nums c0 sv xs)) search rs /\ small rs = true /\
              Forall2 (ev_misses (set_nums c0 sv xs)) check ks /\ rs = fx /\ ks = cr).
    { exists fx, cr. rewrite set_nums_add_all. rewrite He in Hf. rewrite He3 in Hc.
      apply mapM_ok_iff in Hf. apply mapM_ok_iff in Hc. repeat split; auto.
      - eapply Forall2_impl; [|exact Hf]. intros; now apply eval_scalar_ok.
      - eapply Forall2_impl; [|exact Hc]. intros; now apply eval_scalar_ok. }
    destruct Hhit as (rs & ks & H1 & H2 & H3 & -> & ->).
    destruct cr as [|r0 cr].
    + injection H as <- <-. split; [reflexivity|]. split; [exact Hb4|]. exists fx, []. repeat split; auto.
      left. inversion H3; reflexivity.
    + destruct (small (r0 :: cr)) eqn:Hs2; [|discriminate]. injection H as <- <-.
      split; [reflexivity|]. split; [exact Hb4|]. exists fx, (r0 :: cr). repeat split; auto.
  - destruct (jacobi_and_gauss ev search (pvars sv xs) (remove_all (add_all c' (pvars sv xs)) (pvars sv xs)) fx)
      as [nx|e| |]; try discriminate.
    destruct (mapM _ nx) as [bad|e| |]; try discriminate. destruct (existsb _ bad); discriminate.
Qed.

Lemma named_list (g : nat -> res EvalError (MVar N)) (sv : list str) nx :
  Forall2 (fun i v => g i = Ok v) (seq 0 (List.length sv)) nx ->
  (forall i v, i < List.length sv -> g i = Ok v -> exists s, v = mkVar (nth i sv []) [Scalar s]) ->
  exists xs', nx = pvars sv xs' /\ List.length xs' = List.length sv.
Proof.
  revert g nx. induction sv as [|n sv IH]; intros g nx H Hd.
  - inversion H; subst. exists []; auto.
  - cbn [List.length seq] in H. inversion H as [|a v l nx' Hv Hn]; subst.
    destruct (Hd 0 v) as [s Hs]; [cbn; lia|exact Hv|]. cbn in Hs. subst v.
    rewrite <- seq_shift in Hn.
    destruct (IH (fun i => g (S i)) nx') as (xs' & -> & Hl').
    { clear -Hn. revert nx' Hn. induction (seq 0 (List.length sv)) as [|i l IH]; intros nx' Hn; cbn in Hn; inversion Hn; subst; constructor; [assumption|now apply IH]. }
    { intros i v Hi Hg. destruct (Hd (S i) v) as [s' Hs']; [cbn; lia|exact Hg|]. eauto. }
    exists (s :: xs'). split; [reflexivity|cbn; lia].
Qed.

Lemma jacobi_form search sv xs c fx nx : List.length xs = List.length sv ->
  jacobi_and_gauss ev search (pvars sv xs) c fx = Ok nx ->
  exists xs', nx = pvars sv xs' /\ List.length xs' = List.length sv.
Proof.
  intros Hl H. unfold jacobi_and_gauss in H.
  apply bind_ok in H as (jac & _ & H). apply bind_ok in H as (aug & _ & H).
  apply bind_ok in H as (delta & _ & H). rewrite (pvars_length sv xs Hl) in H.
  apply mapM_ok_iff in H.
  assert (Hd : forall i v, i < List.length sv ->
     (do xi <- idx (pvars sv xs) i; do d <- idx delta i; do s <- first_scalar xi;
      Ok (mkVar (var_name xi) [Scalar (nadd d s)])) = @Ok EvalError _ v ->
     exists s, v = mkVar (nth i sv []) [Scalar s]).
  { clear H nx. intros i v Hi H. apply bind_ok in H as (xi & Hxi & H). apply bind_ok in H as (d & _ & H).
    apply bind_ok in H as (s & _ & H). injection H as <-. apply idx_ok in Hxi.
    rewrite pvars_nth in Hxi by exact Hl. destruct (nth_error sv i) eqn:E; [|discriminate].
    destruct (nth_error xs i); [|discriminate]. injection Hxi as <-. cbn.
    rewrite (nth_error_nth sv i [] E). eauto. }
  exact (named_list _ sv nx H Hd).
Qed.

Definition fine (s : T) : Prop := (nis_inf s || nis_nan s)%bool = false.

Lemma newton_next search check sv xs c0 c' x' c'' :
  based sv c0 c' -> List.length xs = List.length sv ->
  newton ev search check (pvars sv xs) c' = (Ok (NextX x'), c'') ->
  based sv c0 c'' /\ exists xs', x' = pvars sv xs' /\ List.length xs' = List.length sv /\ Forall fine xs'.
Proof.
  intros Hb Hl H. unfold newton in H. pose proof (pvars_names sv xs Hl) as Hn.
  destruct (based_add _ _ _ _ Hb Hn) as [He Hb1].
  destruct (mapM (eval_scalar ev (add_all c' (pvars sv xs))) search) as [fx|e| |] eqn:Hf; try discriminate.
  pose proof (based_remove _ _ _ _ Hb1 Hn) as Hb2.
  destruct (small fx).
  - destruct (mapM _ check) as [[|]|e| |]; try discriminate. destruct (small _); discriminate.
  - destruct (jacobi_and_gauss ev search (pvars sv xs) _ fx) as [nx|e| |] eqn:Hj; try discriminate.
    apply jacobi_form in Hj as (xs' & -> & Hl'); [|exact Hl].
    destruct (mapM _ (pvars sv xs')) as [bad|e| |] eqn:Hm; try discriminate.
    destruct (existsb (fun b => b) bad) eqn:Hbad; try discriminate. injection H as <- <-.
    split; [exact Hb2|]. exists xs'. repeat split; auto.
    clear -Hm Hbad Hl'. revert xs' bad Hl' Hm Hbad. unfold pvars.
    induction sv as [|n sv IH]; intros [|x xs] bad Hl Hm Hbad; try discriminate; [constructor|].
    cbn in Hm. apply bind_ok in Hm as (ys & Hys & [= <-]). cbn in Hbad. apply orb_false_iff in Hbad as [H1 H2].
    constructor; [exact H1|]. eapply IH; eauto.
Qed.

(** Signals that end a Newton iteration without an answer. *)
Lemma newton_signal search check sv xs c0 c' r c'' :
  based sv c0 c' -> List.length xs = List.length sv ->
  newton ev search check (pvars sv xs) c' = (r, c'') -> based sv c0 c''.
Proof.
  intros Hb Hl H. unfold newton in H. pose proof (pvars_names sv xs Hl) as Hn.
  destruct (based_add _ _ _ _ Hb Hn) as [He Hb1].
  pose proof (based_remove _ _ _ _ Hb1 Hn) as Hb2.
  destruct (based_add _ _ _ _ Hb2 Hn) as [He3 Hb3].
  pose proof (based_remove _ _ _ _ Hb3 Hn) as Hb4.
  destruct (mapM (eval_scalar ev (add_all c' (pvars sv xs))) search) as [fx|e| |] eqn:Hf; try (injection H as <- <-; exact Hb1).
  destruct (small fx).
  - destruct (mapM _ check) as [[|? ?]|e| |] eqn:Hc; try (injection H as <- <-; exact Hb3); try (injection H as <- <-; exact Hb4).
    destruct (small _); injection H as <- <-; exact Hb4.
  - destruct (jacobi_and_gauss ev search (pvars sv xs) _ fx) as [nx|e| |] eqn:Hj; try (injection H as <- <-; exact Hb2).
    destruct (mapM _ nx) as [bad|e| |] eqn:Hm; try (injection H as <- <-; exact Hb2).
    destruct (existsb _ bad); injection H as <- <-; exact Hb2.
Qed.

Lemma newton_loop_inv n search check sv xs c0 c' ov b c'' :
  based sv c0 c' -> List.length xs = List.length sv -> Forall fine xs ->
  newton_loop ev n search check (pvars sv xs) c' = Ok (ov, b, c'') ->
  based sv c0 c'' /\
  forall v, ov = Some v -> exists xs', v = as_solution xs' /\ List.length xs' = List.length sv /\ Forall fine xs' /\
    exists rs ks, hit search check (set_nums c0 sv xs') rs ks.
Proof.
  revert xs c'. induction n as [|n IH]; intros xs c' Hb Hl Hfine H; cbn in H.
  - injection H as <- <- <-. split; [exact Hb|]. discriminate.
  - destruct (newton ev search check (pvars sv xs) c') as [r c1] eqn:Hn.
    pose proof (newton_signal _ _ _ _ _ _ _ _ Hb Hl Hn) as Hb1.
    destruct r as [[x'|x']|e| |].
    + destruct (newton_next _ _ _ _ _ _ _ _ Hb Hl Hn) as (_ & xs' & -> & Hl' & Hfine').
      eapply IH; eauto.
    + destruct (newton_finished _ _ _ _ _ _ _ _ Hb Hl Hn) as (-> & _ & rs & ks & Hhit).
      rewrite pvars_scalars in H by exact Hl. cbn in H.
      assert (ov = Some (as_solution xs) /\ c'' = c1) as [-> ->].
      { destruct xs as [|s [|s' xs]]; cbn; injection H; intros; subst; split; reflexivity. }
      split; [exact Hb1|]. intros v [= <-]. exists xs. repeat split; eauto.
    + assert (HN : ov = None /\ c'' = c1).
      { destruct e; try discriminate; injection H; intros; subst; split; reflexivity. }
      destruct HN as [-> ->]. split; [exact Hb1|discriminate].
    + discriminate.
    + discriminate.
Qed.

Definition found_at (search check : list (AST N)) (c0 : Ctx N) (sv : list str) (v : V) : Prop :=
  exists xs, v = as_solution xs /\ List.length xs = List.length sv /\ Forall fine xs /\
    exists rs ks, hit search check (set_nums c0 sv xs) rs ks.

Lemma start_loop_inv js search check sv c0 c' acc vs :
  based sv c0 c' -> (forall j, In j js -> fine (nof_Z j)) ->
  Forall (found_at search check c0 sv) acc ->
  start_loop ev js search check sv c' acc = Ok vs ->
  Forall (found_at search check c0 sv) vs.
Proof.
  revert c' acc. induction js as [|j js IH]; intros c' acc Hb Hj Hacc H; cbn [start_loop] in H.
  - injection H as <-. exact Hacc.
  - apply bind_ok in H as ([[ov b] c1] & Hn & H). rewrite pvars_start in Hn.
    apply (newton_loop_inv _ _ _ _ _ c0) in Hn as [Hb1 Hv]; [|exact Hb|now rewrite repeat_length|].
    2:{ apply Forall_forall. intros s Hs. apply repeat_spec in Hs; subst s. apply Hj; now left. }
    assert (Hacc' : Forall (found_at search check c0 sv) (match ov with Some v => acc ++ [v] | None => acc end)).
    { destruct ov as [v|]; [|exact Hacc]. apply Forall_app; split; [exact Hacc|].
      constructor; [|constructor]. destruct (Hv v eq_refl) as (xs' & ? & ? & ? & ?). exists xs'. auto. }
    destruct b.
    + injection H as <-. exact Hacc'.
    + eapply IH; eauto. intros i Hi; apply Hj; now right.
Qed.
End Newton.
