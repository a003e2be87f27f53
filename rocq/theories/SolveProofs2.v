(** * SolveProofs2: choices of equations, cleaning of results, the whole solver. *)
From Coq Require Import List NArith ZArith Bool Lia Arith String Sorting.Permutation Sorting.Sorted.
From Verif Require Import Base BaseFacts F64 Num Types Maths Helpers Parser Eval EvalFuel SpecEval
  EvalProofs CalcSpec SolveSpec SolveProofs.
Import ListNotations.

Lemma ok_inj {E A} (x y : A) : @Ok E A x = Ok y -> x = y.
Proof. now intros [= H]. Qed.

(** ** Combinations *)
Fixpoint combs (arr : list nat) (k : nat) : list (list nat) :=
  match k with
  | O => [[]]
  | S k' => match arr with [] => [] | v :: t => map (cons v) (combs t k') ++ combs t k end
  end.

Section Comb.
Context {N : Num}.
Lemma gen_comb_rest_eq arr len prev : List.length prev <> len ->
  gen_comb_rest arr len prev = gen_comb arr len prev.
Proof. intros H. apply Nat.eqb_neq in H. destruct arr; cbn; now rewrite H. Qed.

Lemma gen_comb_eq arr len prev : List.length prev <= len ->
  gen_comb arr len prev = map (app prev) (combs arr (len - List.length prev)).
Proof.
  revert len prev. induction arr as [|v t IH]; intros len prev H.
  - cbn. destruct (Nat.eqb_spec (List.length prev) len) as [E|E].
    + rewrite E, Nat.sub_diag; cbn. now rewrite app_nil_r.
    + replace (len - List.length prev) with (S (len - List.length prev - 1)) by lia. reflexivity.
  - cbn [gen_comb]. destruct (Nat.eqb_spec (List.length prev) len) as [E|E].
    + rewrite E, Nat.sub_diag; cbn. now rewrite app_nil_r.
    + rewrite gen_comb_rest_eq by exact E.
      rewrite IH by (rewrite app_length; cbn; lia). rewrite IH by lia.
      replace (len - List.length prev) with (S (len - List.length prev - 1)) by lia.
      cbn [combs]. rewrite map_app. f_equal.
      rewrite map_map, app_length. cbn [List.length].
      replace (len - (List.length prev + 1)) with (len - List.length prev - 1) by lia.
      apply map_ext. intros l. now rewrite <- app_assoc.
Qed.

Lemma generate_combinations_eq arr len : generate_combinations arr len [] = combs arr len.
Proof.
  unfold generate_combinations. rewrite gen_comb_eq by (cbn; lia). cbn. rewrite Nat.sub_0_r. apply map_id.
Qed.
End Comb.

Lemma combs_in a m k l : In l (combs (seq a m) k) <->
  List.length l = k /\ StronglySorted lt l /\ Forall (fun i => a <= i < a + m) l.
Proof.
  revert a k l. induction m as [|m IH]; intros a k l.
  - destruct k; cbn.
    + split.
      * intros [<-|[]]. repeat split; constructor.
      * intros (H & _). destruct l; [now left|discriminate].
    + split; [intros []|]. intros (H & _ & F). destruct l; [discriminate|]. inversion F; subst; lia.
  - destruct k; cbn [seq combs].
    + split.
      * intros [<-|[]]. repeat split; constructor.
      * intros (H & _). destruct l; [now left|discriminate].
    + rewrite in_app_iff, in_map_iff, IH. split.
      * intros [(l' & <- & Hl')|(H1 & H2 & H3)].
        -- apply IH in Hl' as (H1 & H2 & H3). cbn. repeat split.
           ++ lia.
           ++ constructor; [exact H2|]. eapply Forall_impl; [|exact H3]. cbn; intros; lia.
           ++ constructor; [lia|]. eapply Forall_impl; [|exact H3]. cbn; intros; lia.
        -- repeat split; auto. eapply Forall_impl; [|exact H3]. cbn; intros; lia.
      * intros (H1 & H2 & H3). destruct l as [|i l]; [discriminate|].
        inversion H2 as [|? ? Hs Hf]; subst. inversion H3 as [|? ? Hi Hr]; subst.
        destruct (Nat.eq_dec i a) as [->|Hne].
        -- left. exists l. split; [reflexivity|]. apply IH. repeat split; auto.
           apply Forall_forall. intros j Hj. rewrite Forall_forall in Hf, Hr.
           specialize (Hf j Hj). specialize (Hr j Hj). lia.
        -- right. repeat split; auto. constructor; [lia|].
           apply Forall_forall. intros j Hj. rewrite Forall_forall in Hf, Hr.
           specialize (Hf j Hj). specialize (Hr j Hj). lia.
Qed.

Lemma SSorted_app {A} (R : A -> A -> Prop) l l' : StronglySorted R l -> StronglySorted R l' ->
  (forall x y, In x l -> In y l' -> R x y) -> StronglySorted R (l ++ l').
Proof.
  intros H H' HR. induction H as [|x l H IH Hx]; cbn; [exact H'|].
  constructor.
  - apply IH. intros; apply HR; [now right|assumption].
  - apply Forall_app; split; [exact Hx|]. apply Forall_forall. intros; apply HR; [now left|assumption].
Qed.
Lemma SSorted_map {A B} (f : A -> B) (R : A -> A -> Prop) (R' : B -> B -> Prop) l :
  (forall x y, R x y -> R' (f x) (f y)) -> StronglySorted R l -> StronglySorted R' (map f l).
Proof.
  intros HR H. induction H as [|x l H IH Hx]; cbn; constructor; [exact IH|].
  apply Forall_map. eapply Forall_impl; [|exact Hx]. auto.
Qed.

Lemma combs_sorted a m k : StronglySorted lex (combs (seq a m) k).
Proof.
  revert a k. induction m as [|m IH]; intros a [|k]; cbn [seq combs]; try (repeat constructor).
  apply SSorted_app.
  - eapply SSorted_map; [|apply IH]. intros; now apply lex_eq_.
  - apply IH.
  - intros x y Hx Hy. apply in_map_iff in Hx as (x' & <- & Hx). apply combs_in in Hy as (H1 & _ & H3).
    destruct y as [|j y]; [discriminate|]. inversion H3; subst. apply lex_lt_. lia.
Qed.

Lemma lex_irrefl l : ~ lex l l.
Proof. induction l as [|x l IH]; intros H; inversion H; subst; [lia|auto]. Qed.
Lemma SSorted_NoDup {A} (R : A -> A -> Prop) l : (forall x, ~ R x x) -> StronglySorted R l -> NoDup l.
Proof.
  intros HR H. induction H as [|x l H IH Hx]; constructor; [|exact IH].
  intros Hin. rewrite Forall_forall in Hx. exact (HR x (Hx x Hin)).
Qed.

(** ** Splitting the equations *)
Section Split.
Context {N : Num}.

Lemma split_into_all {X} (l : list X) : split_into l l [].
Proof. induction l; constructor; auto. Qed.
Lemma split_into_none {X} (l : list X) : split_into l [] l.
Proof. induction l; constructor; auto. Qed.
Lemma split_into_map {X Y} (f : X -> Y) l : forall s k, split_into (map f l) s k ->
  exists s' k', split_into l s' k' /\ s = map f s' /\ k = map f k'.
Proof.
  induction l as [|x l IH]; intros s k H; inversion H as [|? ? ? ? Hr|? ? ? ? Hr]; subst.
  - exists [], []. repeat split; constructor.
  - destruct (IH _ _ Hr) as (s' & k' & H1 & -> & ->). exists (x :: s'), k'. repeat split. now constructor.
  - destruct (IH _ _ Hr) as (s' & k' & H1 & -> & ->). exists s', (x :: k'). repeat split. now constructor.
Qed.
Lemma split_into_In {X} (l s k : list X) x : split_into l s k -> In x l -> In x s \/ In x k.
Proof. induction 1; intros Hin; cbn in *; [tauto| |]; destruct Hin as [->|Hin]; try tauto; destruct (IHsplit_into Hin); tauto. Qed.

Lemma split_into_sub {X} (l s k : list X) : split_into l s k ->
  (forall x, In x s -> In x l) /\ (forall x, In x k -> In x l).
Proof.
  induction 1 as [|x l s k H [I1 I2]|x l s k H [I1 I2]]; split; intros y Hy; cbn in *; try contradiction; auto.
  - destruct Hy; auto.
  - destruct Hy; auto.
Qed.

Lemma split_exprs_ok (es : list (AST N)) comb :
  StronglySorted lt comb -> Forall (fun i => i < List.length es) comb ->
  exists s k, split_exprs es comb = Ok (s, k) /\ split_into es s k /\
    Forall2 (fun j x => nth_error es j = Some x) comb s.
Proof.
  intros Hs Hf. unfold split_exprs.
  assert (H : forall suf pre acc removed comb,
    StronglySorted lt comb ->
    Forall (fun j => List.length pre + removed <= j < List.length pre + removed + List.length suf) comb ->
    exists s k r, foldM (fun (s : list (AST N) * list (AST N) * nat) j =>
            let '(search, check, removed) := s in
            if Nat.ltb j removed then Panic
            else do xr <- take_at (j - removed) check;
                 Ok (search ++ [fst xr], snd xr, S removed)) comb (acc, pre ++ suf, removed)
      = @Ok EvalError _ (acc ++ s, pre ++ k, r) /\ split_into suf s k /\
      Forall2 (fun j x => nth_error suf (j - (List.length pre + removed)) = Some x) comb s).
  { clear. induction suf as [|x suf IH]; intros pre acc removed comb Hs Hf.
    - destruct comb as [|j comb].
      + exists [], [], removed. cbn. rewrite !app_nil_r. repeat split; constructor.
      + inversion Hf; subst. cbn in *; lia.
    - destruct comb as [|j comb].
      + exists [], (x :: suf), removed. cbn. rewrite !app_nil_r.
        repeat split; try constructor. apply split_into_none.
      + inversion Hs as [|? ? Hs' Hlt]; subst. inversion Hf as [|? ? Hj Hf']; subst.
        destruct (Nat.eq_dec j (List.length pre + removed)) as [E|E].
        * cbn [foldM]. destruct (Nat.ltb_spec j removed); [lia|].
          assert (Ht : @take_at EvalError _ (j - removed) (pre ++ x :: suf) = Ok (x, pre ++ suf)).
          { unfold take_at. replace (j - removed) with (List.length pre) by lia.
            unfold idx. rewrite nth_error_app2, Nat.sub_diag by lia. cbn [nth_error unwrap bind].
            rewrite firstn_app, Nat.sub_diag, firstn_all. cbn [firstn]. rewrite app_nil_r.
            replace (skipn (S (List.length pre)) (pre ++ x :: suf)) with suf; [reflexivity|].
            clear. induction pre as [|y pre IHpre]; [reflexivity|]. exact IHpre. }
          rewrite Ht. cbn [bind fst snd].
          destruct (IH pre (acc ++ [x]) (S removed) comb Hs') as (s & k & r & Hfold & Hsp & Hnth).
          { apply Forall_forall. intros i Hi. rewrite Forall_forall in Hlt, Hf'.
            specialize (Hlt i Hi). specialize (Hf' i Hi). cbn in Hf'. lia. }
          exists (x :: s), k, r. rewrite Hfold. rewrite <- app_assoc. split; [reflexivity|].
          split; [now constructor|]. constructor.
          -- replace (j - (List.length pre + removed)) with 0 by lia. reflexivity.
          -- assert (Hge : Forall (fun i => List.length pre + removed < i) comb).
             { apply Forall_forall. intros i Hi. rewrite Forall_forall in Hlt. specialize (Hlt i Hi). lia. }
             clear -Hnth Hge. induction Hnth as [|i y l l' Hy Hn IHn]; constructor.
             ++ inversion Hge; subst. replace (i - (List.length pre + removed)) with (S (i - (List.length pre + S removed))) by lia. exact Hy.
             ++ apply IHn. now inversion Hge.
        * destruct (IH (pre ++ [x]) acc removed (j :: comb) Hs) as (s & k & r & Hfold & Hsp & Hnth).
          { rewrite app_length. cbn [List.length]. cbn [List.length] in Hj, Hf'.
            constructor; [lia|]. apply Forall_forall. intros i Hi. rewrite Forall_forall in Hlt, Hf'.
            specialize (Hlt i Hi). specialize (Hf' i Hi). lia. }
          exists s, (x :: k), r. rewrite <- app_assoc in Hfold. cbn [app] in Hfold.
          rewrite Hfold, <- app_assoc. split; [reflexivity|]. split; [now constructor|].
          rewrite app_length in Hnth. cbn [List.length] in Hnth.
          assert (Hge : Forall (fun i => List.length pre + removed < i) (j :: comb)).
          { constructor; [lia|]. apply Forall_forall. intros i Hi. rewrite Forall_forall in Hlt. specialize (Hlt i Hi). lia. }
          clear -Hnth Hge. induction Hnth as [|i y l l' Hy Hn IHn]; constructor.
          -- inversion Hge; subst. replace (i - (List.length pre + removed)) with (S (i - (List.length pre + 1 + removed))) by lia. exact Hy.
          -- apply IHn. now inversion Hge. }
  destruct (H es [] [] 0 comb Hs) as (s & k & r & Hfold & Hsp & Hnth).
  { cbn. eapply Forall_impl; [|exact Hf]. cbn; intros; lia. }
  exists s, k. cbn [app List.length] in Hfold. rewrite Hfold. cbn. repeat split; auto.
  cbn in Hnth. eapply Forall2_impl; [|exact Hnth]. cbn. intros j x Hx. now rewrite Nat.sub_0_r in Hx.
Qed.

Lemma seq_sorted a m : StronglySorted lt (seq a m).
Proof.
  revert a; induction m as [|m IH]; intros a; cbn; constructor; auto.
  apply Forall_forall. intros i Hi. apply in_seq in Hi. lia.
Qed.
Lemma split_exprs_all (es : list (AST N)) : split_exprs es (seq 0 (List.length es)) = Ok (es, []).
Proof.
  destruct (split_exprs_ok es (seq 0 (List.length es))) as (s & k & H & Hs & Hn).
  { apply seq_sorted. }
  { apply Forall_forall. intros i Hi. apply in_seq in Hi. lia. }
  assert (Hl : List.length s = List.length es).
  { rewrite <- (Forall2_length Hn). apply seq_length. }
  assert (s = es /\ k = []) as [-> ->]; [|exact H].
  clear -Hs Hl. 
  assert (Hlen : forall {X} (l s k : list X), split_into l s k -> List.length s + List.length k = List.length l).
  { induction 1; cbn; lia. }
  induction Hs as [|x l s k Hs IH|x l s k Hs IH].
  - auto.
  - cbn in Hl. destruct IH as [-> ->]; [lia|auto].
  - pose proof (Hlen _ _ _ _ Hs). cbn in Hl. lia.
Qed.
End Split.

(** ** Cleaning *)
Section Clean.
Context {N : Num} {En : Env}.
Notation V := (Value N).

Lemma dedupe_representatives l : representatives l (dedupe l).
Proof.
  induction l as [|v l IH] using rev_ind; [constructor|].
  unfold dedupe in *. rewrite fold_left_app. cbn [fold_left].
  destruct (existsb _ _) eqn:E.
  - apply existsb_exists in E as (w & Hw & He). eapply R_old; eauto.
  - apply R_new; [exact IH|]. intros w Hw.
    destruct (same_rounded v w) eqn:Es; [|reflexivity].
    exfalso. apply Bool.diff_false_true. rewrite <- E. apply existsb_exists. eauto.
Qed.

Lemma representatives_incl found reps : representatives found reps -> incl reps found.
Proof.
  induction 1 as [|found reps v H IH Hn|found reps v w H IH Hw Hs]; intros x Hx; [destruct Hx| |].
  - apply in_app_iff in Hx as [Hx|Hx]; apply in_app_iff; auto.
  - apply in_app_iff; auto.
Qed.
(** Every found value is represented. *)
Lemma representatives_complete found reps v : representatives found reps -> In v found ->
  exists w, In w reps /\ (w = v \/ same_rounded v w = true).
Proof.
  induction 1 as [|found reps u H IH Hn|found reps u w H IH Hw Hs]; intros Hv; [destruct Hv| |];
    apply in_app_iff in Hv as [Hv|[<-|[]]].
  - destruct (IH Hv) as (w & Hw & E). exists w. rewrite in_app_iff; auto.
  - exists u. rewrite in_app_iff; cbn; auto.
  - destruct (IH Hv) as (z & Hz & E). eauto.
  - eauto.
Qed.
Lemma representatives_distinct found reps : representatives found reps ->
  StronglySorted (fun v w => same_rounded w v = false) reps.
Proof.
  induction 1 as [|found reps v H IH Hn|]; [constructor| |assumption].
  apply SSorted_app; [exact IH|repeat constructor|]. intros x y Hx [<-|[]]. auto.
Qed.

(** *** Sorting *)
Hypothesis lt_asym : forall x y : T, nltb x y = true -> nltb y x = false.
Hypothesis le_trans : forall x y z : T, nis_nan y = false -> nltb y x = false -> nltb z y = false -> nltb z x = false.
Variable key : V -> T.

Lemma insert_perm x l : Permutation (insert_by key x l) (x :: l).
Proof.
  induction l as [|y l IH]; cbn; [reflexivity|]. destruct (nltb (key y) (key x)); [|reflexivity].
  rewrite IH. apply perm_swap.
Qed.
Definition key_le (v w : V) : Prop := nltb (key w) (key v) = false.
Lemma insert_sorted x l : Forall (fun v => nis_nan (key v) = false) (x :: l) ->
  StronglySorted key_le l -> StronglySorted key_le (insert_by key x l).
Proof.
  intros Hn H. induction H as [|y l H IH Hy]; cbn; [repeat constructor|].
  inversion Hn as [|? ? Hx Hn']; subst. inversion Hn' as [|? ? Hny Hnl]; subst.
  destruct (nltb (key y) (key x)) eqn:E.
  - constructor; [apply IH; now constructor|].
    apply Forall_forall. intros w Hw. apply (Permutation_in _ (insert_perm x l)) in Hw as [<-|Hw].
    + unfold key_le. now apply lt_asym.
    + rewrite Forall_forall in Hy. now apply Hy.
  - constructor; [now constructor|]. constructor; [exact E|].
    apply Forall_forall. intros w Hw. rewrite Forall_forall in Hy. unfold key_le in *.
    apply (le_trans (key x) (key y) (key w)); auto.
Qed.
Lemma sort_perm l : Permutation (fold_right (insert_by key) [] l) l.
Proof. induction l as [|x l IH]; cbn; [constructor|]. rewrite insert_perm. now constructor. Qed.
Lemma sort_sorted l : Forall (fun v => nis_nan (key v) = false) l ->
  StronglySorted key_le (fold_right (insert_by key) [] l).
Proof.
  induction l as [|x l IH]; intros H; cbn; [constructor|]. inversion H; subst.
  apply insert_sorted; [|auto]. constructor; [assumption|].
  eapply Permutation_Forall; [|eassumption]. symmetry; apply sort_perm.
Qed.
End Clean.

Section Clean2.
Context {N : Num} {En : Env}.
Notation V := (Value N).
Hypothesis lt_asym : forall x y : T, nltb x y = true -> nltb y x = false.
Hypothesis le_trans : forall x y z : T, nis_nan y = false -> nltb y x = false -> nltb z y = false -> nltb z x = false.

Lemma sort_key_ok (key : V -> option T) l s : sort_key key l = Ok s ->
  Permutation s l /\ (forall v, In v l -> exists x, key v = Some x) /\
  StronglySorted (fun v w => forall x y, key v = Some x -> key w = Some y -> nltb y x = false) s.
Proof.
  unfold sort_key. intros H. apply bind_ok in H as (ks & Hk & H).
  destruct (existsb nis_nan ks) eqn:En1; [discriminate|]. injection H as <-.
  set (k := fun v => match key v with Some k => k | None => n0 end).
  apply mapM_ok_iff in Hk.
  assert (Hsome : forall v, In v l -> exists x, key v = Some x).
  { clear -Hk. induction Hk as [|v x l ks Hv Hk IH]; intros u Hu; [destruct Hu|].
    destruct Hu as [<-|Hu]; [|auto]. apply unwrap_ok in Hv. eauto. }
  split; [apply sort_perm|]. split; [exact Hsome|].
  assert (Hnn : Forall (fun v => nis_nan (k v) = false) l).
  { clear -Hk En1. induction Hk as [|v x l ks Hv Hk IH]; constructor.
    - apply unwrap_ok in Hv. unfold k. rewrite Hv. cbn in En1. now apply orb_false_iff in En1 as [-> _].
    - apply IH. cbn in En1. now apply orb_false_iff in En1 as [_ ->]. }
  pose proof (sort_sorted lt_asym le_trans k l Hnn) as Hs.
  fold k. clear -Hs. induction Hs as [|v l' H IH Hv]; constructor; [exact IH|].
  eapply Forall_impl; [|exact Hv]. intros w Hw x y Hx Hy. unfold key_le, k in Hw. now rewrite Hx, Hy in Hw.
Qed.

Lemma by_key_selection (key : V -> option T) l vs :
  (forall v x, key v = Some x -> sort_number v = Some x) ->
  (if Nat.ltb 10 (List.length l) then
     do s <- sort_key (fun v => option_map nabs (key v)) l;
     do t <- slice s 0 10;
     sort_key key t
   else Ok l) = Ok vs ->
  selection l vs.
Proof.
  intros Hkey H. destruct (Nat.ltb_spec 10 (List.length l)) as [Hl|Hl].
  - right. apply bind_ok in H as (s & Hs & H). apply bind_ok in H as (t & Ht & H).
    apply sort_key_ok in Hs as (Hp & Hsome & Hsort).
    apply slice_inv in Ht as (Ha & Hb & ->). cbn [skipn Nat.sub] in H.
    apply sort_key_ok in H as (Hp2 & Hsome2 & Hsort2).
    split; [exact Hl|]. split.
    { rewrite (Permutation_length Hp2), firstn_length. lia. }
    exists (skipn 10 s). split; [|split].
    + rewrite Hp2. rewrite (firstn_skipn 10 s). exact Hp.
    + intros v w x y Hv Hw Hx Hy. apply (Permutation_in _ Hp2) in Hv.
      assert (Hkv : key v = Some x).
      { destruct (Hsome v) as [x' Hx']. { apply (Permutation_in _ Hp). rewrite <- (firstn_skipn 10 s), in_app_iff. auto. }
        destruct (key v) as [x0|] eqn:E; [|discriminate]. pose proof (Hkey _ _ E). congruence. }
      assert (Hkw : key w = Some y).
      { destruct (Hsome w) as [x' Hx']. { apply (Permutation_in _ Hp). rewrite <- (firstn_skipn 10 s), in_app_iff. auto. }
        destruct (key w) as [x0|] eqn:E; [|discriminate]. pose proof (Hkey _ _ E). congruence. }
      rewrite <- (firstn_skipn 10 s) in Hsort.
      assert (Hvw : forall (R : V -> V -> Prop) l l' v w, StronglySorted R (l ++ l') -> In v l -> In w l' -> R v w).
      { clear. intros R l l' v w H Hv Hw. induction l as [|x l IH]; [destruct Hv|]. cbn in H.
        inversion H as [|? ? Hs Hf]; subst. destruct Hv as [<-|Hv]; [|now apply IH].
        rewrite Forall_forall in Hf. apply Hf. rewrite in_app_iff. auto. }
      pose proof (Hvw _ _ _ _ _ Hsort Hv Hw) as HR. apply HR; [now rewrite Hkv|now rewrite Hkw].
    + assert (Hk2 : forall v x, In v vs -> sort_number v = Some x -> key v = Some x).
      { intros v x Hv Hx. apply (Permutation_in _ Hp2) in Hv. destruct (Hsome2 v Hv) as [x' Hx'].
        pose proof (Hkey _ _ Hx'). congruence. }
      clear -Hsort2 Hk2. induction Hsort2 as [|v l' H IH Hv]; constructor.
      * apply IH. intros; apply Hk2; [now right|assumption].
      * apply Forall_forall. intros w Hw x y Hx Hy. rewrite Forall_forall in Hv.
        apply (Hv w Hw); apply Hk2; auto; [now left|now right].
  - left. injection H as <-. auto.
Qed.

Lemma clean_results_selection found vs :
  (forall v, In v found -> is_matrix v = false) ->
  clean_results found = Ok vs -> representatives found (dedupe found) /\ selection (dedupe found) vs.
Proof.
  intros Hm H. split; [apply dedupe_representatives|].
  destruct found as [|r0 found]; [left; cbn in *; injection H as <-; split; [lia|reflexivity]|].
  unfold clean_results in H. pose proof (Hm r0 (or_introl eq_refl)) as H0.
  destruct r0; [discriminate| |].
  - eapply by_key_selection; [|exact H]. intros [m|[|x0 w]|s0] x; cbn; intros Hk; try discriminate; exact Hk.
  - eapply by_key_selection; [|exact H]. intros [m|w|s0] x; cbn; intros Hk; try discriminate; exact Hk.
Qed.
End Clean2.

(** Anything that holds of all found values holds of the cleaned ones. *)
Lemma sort_key_perm {N : Num} (key : Value N -> option T) l s : sort_key key l = Ok s -> Permutation s l.
Proof.
  unfold sort_key. intros H. apply bind_ok in H as (ks & Hk & H).
  destruct (existsb nis_nan ks); [discriminate|]. injection H as <-. apply sort_perm.
Qed.
Lemma clean_results_incl {N : Num} {En : Env} (found vs : list (Value N)) :
  clean_results found = Ok vs -> incl vs found.
Proof.
  intros H v Hv. destruct found as [|r0 found]; [cbn in H; injection H as <-; exact Hv|].
  apply (representatives_incl _ _ (dedupe_representatives (r0 :: found))).
  assert (Hb : forall key l, (if Nat.ltb 10 (List.length l) then
     do s <- sort_key (fun v => option_map nabs (key v)) l; do t <- slice s 0 10; sort_key key t
     else @Ok EvalError _ l) = Ok vs -> In v l).
  { intros key l Hl. destruct (Nat.ltb 10 (List.length l)).
    - apply bind_ok in Hl as (s & Hs & Hl). apply bind_ok in Hl as (t & Ht & Hl).
      apply sort_key_perm in Hs. apply sort_key_perm in Hl.
      apply slice_inv in Ht as (Ha & Hb & ->). apply (Permutation_in _ Hs).
      apply (Permutation_in _ Hl) in Hv. cbn [skipn] in Hv.
      rewrite <- (firstn_skipn (10 - 0) s), in_app_iff. auto.
    - injection Hl as <-. exact Hv. }
  unfold clean_results in H. destruct r0.
  - injection H as <-. exact Hv.
  - eapply Hb; exact H.
  - eapply Hb; exact H.
Qed.

(** ** The solver *)
Section Solver.
Context {N : Num} {En : Env}.
Notation V := (Value N).
Variable ev : AST N -> Ctx N -> res EvalError (list V).

(** One choice of equations: all starting values, then the cleaning. *)
Definition attempt (search check : list (AST N)) (sv : list str) (c : Ctx N) : res EvalError (list V) :=
  do found <- start_loop ev starts search check sv c []; clean_results found.

Lemma attempt_inv search check sv c vs : attempt search check sv c = Ok vs ->
  exists found, start_loop ev starts search check sv c [] = Ok found /\ clean_results found = Ok vs.
Proof. unfold attempt. intros H. apply bind_ok in H. exact H. Qed.

Lemma comb_loop_first cs es c sv vs : comb_loop ev cs es c sv = Ok vs ->
  (vs = [] /\ forall i, In i cs -> exists s k, split_exprs es i = Ok (s, k) /\ attempt s k sv c = Ok []) \/
  (vs <> [] /\ exists pre i post s k, cs = pre ++ i :: post /\ split_exprs es i = Ok (s, k) /\ attempt s k sv c = Ok vs /\
     forall i', In i' pre -> exists s k, split_exprs es i' = Ok (s, k) /\ attempt s k sv c = Ok []).
Proof.
  induction cs as [|i cs IH]; cbn [comb_loop]; intros H.
  - injection H as <-. left. split; [reflexivity|]. intros i [].
  - apply bind_ok in H as ([s k] & Hs & H). apply bind_ok in H as (found & Hf & H).
    apply bind_ok in H as (cl & Hc & H). cbn [fst snd] in *.
    assert (Ha : attempt s k sv c = Ok cl) by (unfold attempt; now rewrite Hf).
    destruct cl as [|v cl].
    + destruct (IH H) as [(-> & Hall)|(Hne & pre & i' & post & s' & k' & -> & Hs' & Ha' & Hpre)].
      * left. split; [reflexivity|]. intros j [<-|Hj]; eauto.
      * right. split; [exact Hne|]. exists (i :: pre), i', post, s', k'. repeat split; auto.
        intros j [<-|Hj]; eauto.
    + injection H as <-. right. split; [discriminate|]. exists [], i, cs, s, k. repeat split; auto. intros j [].
Qed.

Lemma probe_restored c sv :
  (forall n v, In n sv -> In v (vars c) -> var_name v <> n) ->
  fold_left remove_var sv (fold_left (fun c n => add_var c (mkVar n [Scalar nprobe])) sv c) = c.
Proof.
  intros Hd.
  assert (Ha : fold_left (fun c n => add_var c (mkVar n [Scalar nprobe])) sv c
               = add_all c (pvars sv (repeat nprobe (List.length sv)))).
  { rewrite <- pvars_start. unfold add_all. clear Hd. revert c. induction sv as [|n sv IH]; intros c; cbn; [reflexivity|apply IH]. }
  assert (Hr : forall x, map var_name x = sv -> forall c : Ctx N, fold_left remove_var sv c = remove_all c x).
  { intros x <-. unfold remove_all. clear. induction x as [|a x IH]; intros c; cbn; [reflexivity|apply IH]. }
  set (x := pvars sv (repeat nprobe (List.length sv))) in *.
  assert (Hx : map var_name x = sv) by (apply pvars_names; now rewrite repeat_length).
  rewrite Ha, (Hr x Hx). clear Ha Hr.
  assert (Hb : based sv c c).
  { split; [|reflexivity]. apply drop_none. intros v Hv Hn. exact (Hd _ _ Hn Hv eq_refl). }
  destruct (based_add _ _ _ _ Hb Hx) as [_ [H1 H2]].
  rewrite remove_all_vars, Hx, H1, H2. now destruct c.
Qed.

Lemma rf_new_ok es c sv rf : rf_new ev es c sv = Ok rf ->
  es <> [] /\ forallb is_operation es = true /\
  (forall n v, In n sv -> In v (vars c) -> var_name v <> n) /\ List.length sv <= List.length es /\
  rf = mkRF es (if Nat.ltb (List.length sv) (List.length es) then combs (seq 0 (List.length es)) (List.length sv)
                else [seq 0 (List.length es)]) c sv.
Proof.
  unfold rf_new. intros H. destruct es as [|e0 es]; [discriminate|].
  destruct (forallb is_operation (e0 :: es)) eqn:Hop; cbn [negb] in H; [|discriminate].
  destruct (existsb _ sv) eqn:Hd; [discriminate|].
  assert (Hd' : forall n v, In n sv -> In v (vars c) -> var_name v <> n).
  { intros n v Hn Hv E. apply Bool.diff_false_true. rewrite <- Hd. apply existsb_exists. exists n. split; [exact Hn|].
    apply existsb_exists. exists v. split; [exact Hv|]. rewrite E. apply str_eqb_refl. }
  destruct (Nat.ltb_spec (List.length (e0 :: es)) (List.length sv)) as [|Hl]; [discriminate|].
  apply bind_ok in H as (ini & _ & H). apply bind_ok in H as (v & _ & H).
  destruct v; try discriminate. apply ok_inj in H as <-. rewrite probe_restored by exact Hd'.
  rewrite generate_combinations_eq. repeat split; auto. discriminate.
Qed.

Lemma attempt_found_js js (Hst : forall j, In j js -> fine (nof_Z j)) s k sv c found vs :
  (forall n v, In n sv -> In v (vars c) -> var_name v <> n) ->
  start_loop ev js s k sv c [] = Ok found -> clean_results found = Ok vs -> Forall (found_at ev s k c sv) vs.
Proof.
  intros Hd Hf H.
  apply (start_loop_inv ev _ _ _ _ c) in Hf; [|split; [|reflexivity]|exact Hst|constructor].
  - apply clean_results_incl in H. apply Forall_forall. intros v Hv. rewrite Forall_forall in Hf. auto.
  - apply drop_none. intros v Hv Hn. exact (Hd _ _ Hn Hv eq_refl).
Qed.
Lemma attempt_found (Hst : forall j, In j starts -> fine (nof_Z j)) s k sv c vs :
  (forall n v, In n sv -> In v (vars c) -> var_name v <> n) ->
  attempt s k sv c = Ok vs -> Forall (found_at ev s k c sv) vs.
Proof.
  unfold attempt. intros Hd H. apply bind_ok in H as (found & Hf & H).
  exact (attempt_found_js starts Hst s k sv c found vs Hd Hf H).
Qed.

(** The whole solver on success. *)
Lemma solve_ok_inv eqs c sv vs : solve ev eqs c sv = Ok vs ->
  eqs <> [] /\ (forall n v, In n sv -> In v (vars c) -> var_name v <> n) /\ List.length sv <= List.length eqs /\
  let es := map (fun i => AOp OSub (fst i) (snd i)) eqs in
  comb_loop ev (if Nat.ltb (List.length sv) (List.length es) then combs (seq 0 (List.length es)) (List.length sv)
                else [seq 0 (List.length es)]) es c sv = Ok vs.
Proof.
  unfold solve. intros H. apply bind_ok in H as (rf & Hrf & H).
  apply rf_new_ok in Hrf as (Hne & _ & Hd & Hl & ->). unfold find_roots in H; cbn [rf_combinations rf_expressions rf_context rf_search_vars] in H.
  rewrite map_length in Hl. repeat split; auto. intros ->; auto.
Qed.

Lemma comb_choice (es : list (AST N)) (sv : list str) i : List.length sv <= List.length es ->
  In i (if Nat.ltb (List.length sv) (List.length es) then combs (seq 0 (List.length es)) (List.length sv)
        else [seq 0 (List.length es)]) <-> is_choice (List.length sv) (List.length es) i.
Proof.
  intros Hl. destruct (Nat.ltb_spec (List.length sv) (List.length es)) as [H|H].
  - rewrite combs_in. unfold is_choice. split; intros (H1 & H2 & H3); repeat split; auto;
      (eapply Forall_impl; [|exact H3]); cbn; intros; lia.
  - assert (E : List.length sv = List.length es) by lia. cbn. unfold is_choice. rewrite E. split.
    + intros [<-|[]]. repeat split; [apply seq_length|apply seq_sorted|].
      apply Forall_forall. intros j Hj. apply in_seq in Hj. lia.
    + intros (H1 & H2 & H3). left.
      assert (Hc : In i (combs (seq 0 (List.length es)) (List.length es))).
      { apply combs_in. repeat split; auto. eapply Forall_impl; [|exact H3]. cbn; intros; lia. }
      assert (Hall : forall m a, combs (seq a m) m = [seq a m] /\ combs (seq a m) (S m) = []).
      { clear. induction m as [|m IH]; intros a; [split; reflexivity|]. destruct (IH (S a)) as [I1 I2]. 
        assert (I3 : combs (seq a (S m)) (S (S m)) = []).
        { change (combs (seq a (S m)) (S (S m))) with (map (cons a) (combs (seq (S a) m) (S m)) ++ combs (seq (S a) m) (S (S m))).
          rewrite I2. cbn. destruct (combs (seq (S a) m) (S (S m))) as [|z zs] eqn:Ez; [reflexivity|].
          assert (Hz : In z (combs (seq (S a) m) (S (S m)))) by (rewrite Ez; now left).
          apply combs_in in Hz as (L1 & L2 & L3).
          exfalso. 
          assert (HND : NoDup z) by (eapply SSorted_NoDup; [|exact L2]; intros x; apply Nat.lt_irrefl).
          assert (Hi : incl z (seq (S a) m)).
          { intros q Hq. rewrite Forall_forall in L3. specialize (L3 q Hq). apply in_seq. lia. }
          pose proof (NoDup_incl_length HND Hi). rewrite seq_length in H. lia. }
        split; [|exact I3]. cbn [seq combs]. rewrite I1, I2. reflexivity. }
      destruct (Hall (List.length es) 0) as [Ha _]. rewrite Ha in Hc. destruct Hc as [Hc|[]]. exact Hc.
Qed.

Lemma solve_found (Hst : forall j, In j starts -> fine (nof_Z j)) eqs c sv vs v :
  solve ev eqs c sv = Ok vs -> In v vs ->
  exists search check, split_into eqs search check /\ List.length search = List.length sv /\
    found_at ev (map (fun i => AOp OSub (fst i) (snd i)) search) (map (fun i => AOp OSub (fst i) (snd i)) check) c sv v.
Proof.
  intros H Hv. apply solve_ok_inv in H as (Hne & Hd & Hl & H). cbn zeta in H.
  set (es := map (fun i => AOp OSub (fst i) (snd i)) eqs) in *.
  assert (Hles : List.length sv <= List.length es) by (unfold es; now rewrite map_length).
  apply comb_loop_first in H as [[-> _]|(_ & pre & i & post & s & k & Hcs & Hsp & Ha & _)]; [destruct Hv|].
  assert (Hi : is_choice (List.length sv) (List.length es) i).
  { apply comb_choice; [exact Hles|]. rewrite Hcs. rewrite in_app_iff; cbn; auto. }
  destruct Hi as (Hi1 & Hi2 & Hi3).
  destruct (split_exprs_ok es i Hi2 Hi3) as (s' & k' & Hsp' & Hinto & Hnth).
  rewrite Hsp in Hsp'. injection Hsp' as <- <-.
  apply split_into_map in Hinto as (se & ke & Hinto & -> & ->).
  exists se, ke. split; [exact Hinto|]. split.
  - rewrite <- Hi1, (Forall2_length Hnth). now rewrite map_length.
  - apply (attempt_found Hst _ _ _ _ _ Hd) in Ha. rewrite Forall_forall in Ha. now apply Ha.
Qed.
End Solver.
