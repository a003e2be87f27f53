(** * PropAnswers: C72 - eq answers whenever the equations are about numbers. *)
From Coq Require Import List NArith ZArith Bool Lia Arith Sorting.Sorted.
From Verif Require Import Base BaseFacts F64 Num Types Maths Helpers Parser Eval EvalFuel SpecEval
  FloatFacts SolveFloat EvalProofs PropEval ContextProofs GrammarSpec ShapeSpec MathsForms CalcSpec SolveSpec SolveProofs SolveProofs2 PropSolve SolveForward SearchSpec Search PropSearch
  KindSpec PropKinds Toy.
Import ListNotations.

Section Generic.
Context {N : Num} {En : Env}.
Notation equation := (AST N * AST N)%type.

(** ** The linear equations *)
Lemma gauss_total (v : list (list T)) n : 0 < n -> shape v n (n + 1) ->
  (exists d, gauss_algorithm v = Ok d) \/ gauss_algorithm v = Err InfiniteSolutions.
Proof.
  intros Hn Hv. unfold gauss_algorithm. rewrite (row0_len_shape v n (n + 1)) by assumption. cbn [bind].
  rewrite (proj1 Hv), Nat.eqb_refl. cbn [negb]. rewrite (eliminate_form _ v n (n + 1)) by (auto; lia).
  destruct (elim_total InfiniteSolutions n (n + 1) v) as [->|[w Hw]]; [now right|]. rewrite Hw. cbn [bind].
  apply elim_shape in Hw; [|exact Hv]. assert (Hf : shape (flip 1 w) n (n + 1)) by (apply flip_shape; auto; lia).
  rewrite (eliminate_form _ (flip 1 w) n (n + 1)) by (auto; lia).
  destruct (elim_total InfiniteSolutions n (n + 1) (flip 1 w)) as [->|[u Hu]]; [now right|]. rewrite Hu. cbn [bind].
  apply elim_shape in Hu; [|exact Hf]. left. rewrite (proj1 Hu).
  rewrite (mapM_tab _ (fun i => ndiv (ent u i n) (ent u i i))); [eexists; reflexivity|].
  intros i Hi. rewrite (idx_row u n (n + 1)) by assumption. cbn [bind].
  pose proof (shape_row u n (n + 1) i Hu Hi) as L. rewrite L. rewrite !(idx_nth _ _ n0) by lia. cbn [bind].
  replace (n + 1 - 1) with n by lia. reflexivity.
Qed.
Lemma newton_rows_shape (rs : list T) cols : shape (newton_rows rs cols) (List.length rs) (List.length cols + 1).
Proof.
  split; [apply newton_rows_length|]. apply Forall_forall. intros r Hr. unfold newton_rows in Hr. apply in_map_iff in Hr as (p & <- & _).
  now rewrite app_length, map_length.
Qed.

(** ** Totality of the search *)
(** Wherever the unknowns are, every equation compares two numbers. *)
Definition numeric (eqs : list equation) (sv : list str) (c : Ctx N) : Prop :=
  forall xs, List.length xs = List.length sv -> forall e, In e eqs -> exists s, misses_by (set_nums c sv xs) e s.

Section Total.
Context (search check : list equation) (sv : list str) (c : Ctx N).
Hypothesis (Hs : List.length search = List.length sv) (Hne : sv <> []).
Hypothesis (Hn : numeric (search ++ check) sv c).

Lemma residuals_total eqs xs : incl eqs (search ++ check) -> List.length xs = List.length sv -> exists rs, residuals misses_by sv c eqs xs rs.
Proof.
  intros Hi Hx. unfold residuals. apply Forall2_ex. apply Forall_forall. intros e He. apply Hn; auto.
Qed.
Lemma bump_length j (xs : list T) : List.length (bump j xs) = List.length xs.
Proof. revert xs. induction j as [|j IH]; intros [|x xs]; cbn; try reflexivity. f_equal. apply IH. Qed.
Lemma columns_total xs : List.length xs = List.length sv -> exists cols, columns misses_by search sv c xs cols.
Proof.
  intros Hx. destruct (Forall2_ex (fun j col => residuals misses_by sv c search (bump j xs) col) (seq 0 (List.length xs))) as [cols H].
  { apply Forall_forall. intros j _. apply residuals_total; [apply incl_appl, incl_refl|]. now rewrite bump_length. }
  exists cols. split; [now rewrite <- (Forall2_length H), seq_length|]. intros j col Hj.
  destruct (EvalProofs.Forall2_nth_r _ _ _ _ _ H Hj) as (j' & Hj' & Hr).
  assert (j < List.length xs). { rewrite <- (seq_length (List.length xs) 0). apply nth_error_Some. congruence. }
  rewrite (nth_error_nth' _ 0) in Hj' by now rewrite seq_length. rewrite seq_nth in Hj' by assumption. injection Hj' as <-. exact Hr.
Qed.
Lemma run_total n xs : List.length xs = List.length sv -> exists e, run misses_by search check sv c n xs e.
Proof.
  revert xs. induction n as [|n IH]; intros xs Hx; [exists Lost; constructor|].
  destruct (residuals_total search xs) as [rs Hr]; [apply incl_appl, incl_refl|exact Hx|].
  destruct (tiny rs) eqn:Et.
  - destruct (residuals_total check xs) as [ks Hk]; [apply incl_appr, incl_refl|exact Hx|].
    destruct check as [|k0 ck] eqn:Ec; [exists (Found xs); eapply run_found; eauto|].
    destruct (tiny ks) eqn:Ek; [exists (Found xs); eapply run_found; eauto|].
    exists Lost. eapply run_rejected; eauto. discriminate.
  - destruct (columns_total xs Hx) as [cols Hc].
    assert (Lr : List.length rs = List.length sv) by (rewrite <- Hs; symmetry; exact (Forall2_length Hr)).
    pose proof (newton_rows_shape rs cols) as Hsh. rewrite (proj1 Hc), Hx, Lr in Hsh.
    destruct (gauss_total (newton_rows rs cols) (List.length sv)) as [[d Hd]|Hg]; [destruct sv; [contradiction|cbn; lia]|exact Hsh| |].
    + destruct (forallb finite (moved d xs)) eqn:Ef.
      * destruct (IH (moved d xs)) as [e He].
        { unfold moved. rewrite map_length, combine_length. pose proof (gauss_length _ _ Hd) as Ld. rewrite newton_rows_length in Ld. lia. }
        exists e. eapply run_next; eauto.
      * exists Lost. eapply run_away; eauto.
    + exists Flat. eapply run_flat; eauto.
Qed.
Lemma searched_total js : exists found, searched misses_by search check sv c js found.
Proof.
  induction js as [|j js [found IH]]; [exists []; constructor|].
  destruct (run_total 1000 (start_point sv j)) as [[xs| |] H]; [unfold start_point; apply repeat_length| | |].
  - eexists. eapply searched_found; eauto.
  - eexists. eapply searched_lost; eauto.
  - exists []. now apply searched_flat.
Qed.
End Total.

Lemma picked_incl {X} k i (l : list X) : incl (picked k i l) l.
Proof.
  revert i. induction l as [|x l IH]; intros i y Hy; cbn in Hy; [exact Hy|]. destruct (k i).
  - destruct Hy as [->|Hy]; [now left|right; eapply IH; exact Hy].
  - right. eapply IH. exact Hy.
Qed.
Lemma finds_total (eqs : list equation) sv c l : sv <> [] -> numeric eqs sv c -> is_choice (List.length sv) (List.length eqs) l ->
  exists found, finds eqs sv c l found.
Proof.
  intros Hne Hn (H1 & H2 & H3). unfold finds. apply searched_total; auto.
  - now rewrite picked_length.
  - intros xs Hx e He. apply Hn; auto. apply in_app_iff in He as [He|He]; eapply picked_incl; exact He.
Qed.
End Generic.

Section Binary64.
Context (lm : Libm).
Local Instance NF : Num := F64 lm.
Context {En : Env}.
Notation V := (Value NF).
Notation equation := (AST NF * AST NF)%type.

(** The kind of the solutions: numbers for one unknown, otherwise vectors with
    one component for each. *)
Definition solution_kind (sv : list str) : kind := match sv with [_] => KS | _ => KV (List.length sv) end.

Theorem c72_always_an_answer (eqs : list equation) sv c :
  NoDup sv -> sv <> [] -> ~ defined c sv -> List.length sv <= List.length eqs -> numeric eqs sv c ->
  exists vs, outcome (AEq eqs sv) c (Ok vs).
Proof.
  intros Hnd Hne Hdf Hl Hn.
  assert (Hs : searchable lm eqs sv c).
  { split; [exact Hnd|]. split; [exact Hne|]. split; [exact Hdf|]. split; [exact Hl|].
    destruct eqs as [|[l r] eqs]; [destruct sv; [contradiction|cbn in Hl; lia]|].
    destruct (Hn (repeat nprobe (List.length sv)) (repeat_length _ _) (l, r) (or_introl eq_refl)) as [s H].
    exists l, r, eqs, s. split; [reflexivity|exact H]. }
  pose proof (fun l => choices_spec eqs sv l Hl) as Hcs. pose proof (choices_sorted eqs sv) as Hsort.
  assert (G : forall ls, (forall l, In l ls -> is_choice (List.length sv) (List.length eqs) l) ->
    (forall l, In l ls -> finds eqs sv c l []) \/
    exists pre l post found, ls = pre ++ l :: post /\ (forall l', In l' pre -> finds eqs sv c l' []) /\ finds eqs sv c l found /\ found <> []).
  { induction ls as [|l ls IH]; intros Hc; [left; intros l []|].
    destruct (finds_total eqs sv c l Hne Hn (Hc l (or_introl eq_refl))) as [[|v found] Hf].
    - destruct IH as [IH|(pre & l1 & post & found & -> & H1 & H2 & H3)]; [intros; apply Hc; now right| |].
      + left. intros l' [<-|Hin]; [exact Hf|now apply IH].
      + right. exists (l :: pre), l1, post, found. split; [reflexivity|]. split; [|auto]. intros l' [<-|Hin]; [exact Hf|now apply H1].
    - right. exists [], l, ls, (v :: found). split; [reflexivity|]. split; [intros l' []|]. split; [exact Hf|discriminate]. }
  destruct (G (choices eqs sv)) as [H|(pre & l & post & found & E & H1 & H2 & H3)]; [intros l Hin; now apply Hcs| |].
  - exists []. apply (c69_nothing_found lm); [exact Hs|]. intros l Hc. apply H, Hcs, Hc.
  - assert (Hc : is_choice (List.length sv) (List.length eqs) l) by (apply Hcs; rewrite E, in_app_iff; right; now left).
    destruct (c69_something_found lm eqs sv c l found Hs Hc H2 H3) as (vs & reps & Ho & _); [|eauto].
    intros l' Hc' Hlex. apply Hcs in Hc'. rewrite E in Hc', Hsort. apply in_app_iff in Hc' as [Hin|[->|Hin]]; [now apply H1|exfalso; eapply lex_irrefl; eauto|].
    exfalso. clear -Hsort Hin Hlex. induction pre as [|x pre IH].
    + inversion Hsort as [|? ? _ Hf]; subst. rewrite Forall_forall in Hf. exact (lex_asym _ _ (Hf _ Hin) Hlex).
    + inversion Hsort; subst. auto.
Qed.

(** The answers are of the kind of solutions. *)
Theorem c72_kind_of_answers (eqs : list equation) sv c vs : NoDup sv -> sv <> [] -> outcome (AEq eqs sv) c (Ok vs) ->
  Forall (fun v => has_kind v (solution_kind sv)) vs.
Proof.
  intros Hnd Hne H. destruct (c69_answer lm eqs sv c vs Hnd H) as [[-> _]|(_ & l & found & reps & Hc & Hf & Hr & Hsel & _)]; [constructor|].
  pose proof (finds_fine lm eqs sv c l found Hc Hf) as Hall. rewrite Forall_forall in Hall.
  assert (Hin : incl vs reps).
  { destruct Hsel as [[_ ->]|(_ & _ & rest & Hp & _)]; [apply incl_refl|]. intros v Hv. eapply Permutation.Permutation_in; [exact Hp|]. apply in_app_iff; now left. }
  apply Forall_forall. intros v Hv. apply Hin, (representatives_incl _ _ Hr) in Hv. destruct (Hall v Hv) as (xs & -> & _ & Hx).
  destruct sv as [|n1 [|n2 sv]]; [contradiction| |]; destruct xs as [|x [|y xs]]; try discriminate Hx; cbn; [exact I|]. cbn in Hx. split; [lia|lia].
Qed.

Lemma fits_unknowns sv xs (c : Ctx NF) : NoDup sv -> ~ defined c sv -> List.length xs = List.length sv ->
  fits (set_nums c sv xs) (with_params sv (repeat KS (List.length sv)) (context_kinds c)).
Proof.
  intros Hnd Hdf Hx n km H.
  assert (Hd : undefined c sv) by (intros m v Hm Hv E; apply Hdf; exists m, v; auto).
  rewrite set_nums_distinct by assumption. unfold lookup_var. cbn [vars]. rewrite find_app.
  unfold with_params in H. destruct (find (fun nk => str_eqb (fst nk) n) (combine sv (repeat KS (List.length sv)))) as [[n' k]|] eqn:E.
  - injection H as <-. apply find_some in E as [E1 E2]. cbn [fst] in E2. apply str_eqb_eq in E2. subst n'.
    apply in_combine_r in E1 as Ek. apply repeat_spec in Ek as ->. apply in_combine_l in E1.
    replace (find _ (vars c)) with (@None (MVar NF)).
    2:{ symmetry. destruct (find (fun v : MVar NF => str_eqb (var_name v) n) (vars c)) as [w|] eqn:Ew; [|reflexivity].
        apply find_some in Ew as [Ew1 Ew2]. apply str_eqb_eq in Ew2. exfalso. exact (Hd n w E1 Ew1 Ew2). }
    unfold pvars. clear Hnd Hdf Hd. revert xs Hx E1. induction sv as [|m sv IH]; intros [|x xs] Hx Hin; try discriminate; [contradiction|].
    cbn [combine map find fst snd var_name]. destruct (str_eqb_spec m n) as [->|Hne]; [eexists; split; [reflexivity|]; split; [reflexivity|repeat constructor]|].
    destruct Hin as [->|Hin]; [contradiction|]. apply IH; [now injection Hx|exact Hin].
  - destruct (context_fits c n km H) as (w & Hw & Hk). unfold lookup_var in Hw. rewrite Hw. eauto.
Qed.

(** Equations that pass the static check (C71) as equations about numbers, with
    the unknowns being numbers, have an answer. *)
Theorem c72_checked_equations (eqs : list equation) sv c n :
  NoDup sv -> sv <> [] -> ~ defined c sv -> List.length sv <= List.length eqs ->
  (forall l r, In (l, r) eqs -> exists m, 0 < m /\
     kind_of n (context_functions c) [] (with_params sv (repeat KS (List.length sv)) (context_kinds c)) (AOp OSub l r) = Some (KS, m)) ->
  exists vs, outcome (AEq eqs sv) c (Ok vs) /\ Forall (fun v => has_kind v (solution_kind sv)) vs.
Proof.
  intros Hnd Hne Hdf Hl H.
  destruct (c72_always_an_answer eqs sv c Hnd Hne Hdf Hl) as [vs Hv].
  - intros xs Hx [l r] He. destruct (H l r He) as (m & Hm & Hk).
    destruct (kinds_sound n _ _ _ _ _ Hk (set_nums c sv xs) (fits_unknowns sv xs c Hnd Hdf Hx)) as (ws & Ho & L & F).
    { intros f. assert (Hd : undefined c sv) by (intros m' v Hm' Hv E; apply Hdf; exists m', v; auto). now rewrite set_nums_distinct. }
    destruct ws as [|w ws]; [cbn in L; lia|]. inversion F as [|? ? Hw _]; subst. destruct w as [? | ? |s]; try contradiction. exists s, ws. exact Ho.
  - exists vs. split; [exact Hv|]. eapply c72_kind_of_answers; eauto.
Qed.
End Binary64.

Module Examples.
Local Existing Instance NT.
Local Existing Instance ET.
Import PropKinds.Examples.
(** [eq(f(x) = v * v, x)] with [f(x) = x^2 + 1] has an answer. *)
Definition eqs : list (AST NT * AST NT) := [(AFun lf [AVar lx], AOp OMult (AVar lv) (AVar lv))].
Example c72_case : exists vs, outcome (AEq eqs [lx]) c (Ok vs) /\ Forall (fun v => has_kind v KS) vs.
Proof.
  apply (c72_checked_equations toy eqs [lx] c 10).
  - repeat constructor. intros [].
  - discriminate.
  - intros (n & v & [<-|[]] & [<-|[]] & E). discriminate E.
  - cbn. lia.
  - intros l r [[= <- <-]|[]]. exists 1. split; [lia|]. reflexivity.
Qed.
End Examples.
