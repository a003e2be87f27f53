(** * EvalProofs: evaluation, case by case. *)
From Coq Require Import List NArith ZArith Bool Lia Arith String.
From Verif Require Import Base BaseFacts F64 Num Types Maths Helpers Parser Eval EvalFuel SpecEval.
Import ListNotations.

Section Proofs.
Context {N : Num} {En : Env}.
Notation V := (Value N).

Lemma outcome_intro f b c r : eval f b c = r -> r <> Fuel -> outcome b c r.
Proof.
  intros H Hr; split; [exact Hr|]. exists f; intros f' Hf.
  rewrite <- H in *. unfold eval in *. apply rle_eq; [now apply eval_rec_mono|exact Hr].
Qed.

Lemma outcome_unique b c r1 r2 : outcome b c r1 -> outcome b c r2 -> r1 = r2.
Proof.
  intros [_ [f1 H1]] [_ [f2 H2]].
  rewrite <- (H1 (Nat.max f1 f2)), <- (H2 (Nat.max f1 f2)); auto; lia.
Qed.

Lemma outcome_not_diverges b c r : outcome b c r -> ~ diverges b c.
Proof. intros [Hr [f H]] Hd. apply Hr. rewrite <- (H f (le_n f)). apply Hd. Qed.

Lemma eval_unique b c f1 f2 :
  eval f1 b c <> Fuel -> eval f2 b c <> Fuel -> eval f1 b c = eval f2 b c.
Proof.
  intros H1 H2. apply (outcome_unique b c); eapply outcome_intro; eauto.
Qed.

(** ** cart_prod *)
Lemma flat_map_flat_map {A B C} (g : B -> list C) (h : A -> list B) l :
  flat_map g (flat_map h l) = flat_map (fun x => flat_map g (h x)) l.
Proof. induction l as [|x l IH]; cbn; [reflexivity|]. now rewrite flat_map_app, IH. Qed.

Lemma cart_prod_choices {A} (ls : list (list A)) : cart_prod ls = choices ls.
Proof.
  unfold cart_prod.
  assert (H : forall acc, fold_left cart_step ls acc
                          = flat_map (fun r => map (app r) (choices ls)) acc).
  { induction ls as [|l ls IH]; intros acc; cbn [fold_left choices].
    - induction acc as [|r acc IHa]; [reflexivity|]. cbn in *. now rewrite app_nil_r, <- IHa.
    - rewrite IH. unfold cart_step. rewrite flat_map_flat_map.
      apply flat_map_ext; intros r.
      induction l as [|x l IHl]; cbn; [reflexivity|].
      rewrite map_app, <- IHl. f_equal.
      rewrite map_map. apply map_ext; intros s. now rewrite <- app_assoc. }
  rewrite H; cbn. rewrite app_nil_r. now rewrite map_id.
Qed.

Lemma choices_length {A} (ls : list (list A)) :
  List.length (choices ls) = fold_right Nat.mul 1 (map (@List.length A) ls).
Proof.
  induction ls as [|l ls IH]; cbn; [reflexivity|].
  rewrite <- IH. clear. induction l as [|x l IHl]; cbn; [reflexivity|].
  rewrite app_length, map_length, IHl. lia.
Qed.

(** Exactly the tuples with one element of each list, in the same order. *)
Lemma choices_in {A} (ls : list (list A)) t :
  In t (choices ls) <-> Forall2 (fun x l => In x l) t ls.
Proof.
  revert t; induction ls as [|l ls IH]; intros t; cbn.
  - split; [intros [<-|[]]; constructor|intros H; inversion H; auto].
  - rewrite in_flat_map. split.
    + intros (x & Hx & Ht). apply in_map_iff in Ht as (t' & <- & Ht'). constructor; [exact Hx|now apply IH].
    + intros H; inversion H as [|x ? t' ? Hx Ht]; subst. exists x; split; [exact Hx|].
      apply in_map_iff; exists t'; split; [reflexivity|now apply IH].
Qed.

(** Position: tuple of positions [is] is at index "mixed radix [is]". *)
Fixpoint radix {A} (ls : list (list A)) (is_ : list nat) : nat :=
  match ls, is_ with
  | _ :: ls, i :: is_ => i * List.length (choices ls) + radix ls is_
  | _, _ => 0
  end.

(** ** Tables *)
Lemma concat_grid {A} (w : nat) (ls : list (list A)) :
  (forall l, In l ls -> List.length l = w) ->
  List.length (List.concat ls) = List.length ls * w /\ forall i l k v, nth_error ls i = Some l -> nth_error l k = Some v ->
    nth_error (List.concat ls) (i * w + k) = Some v.
Proof.
  induction ls as [|l0 ls IH]; intros H; cbn [List.concat List.length].
  - split; [reflexivity|]. intros [|i]; discriminate.
  - assert (H0 : List.length l0 = w) by (apply H; now left).
    destruct IH as [IHl IHn]; [intros; apply H; now right|].
    split; [rewrite app_length; lia|].
    intros [|i] l k v Hl Hv; cbn in Hl.
    + injection Hl as ->. cbn. rewrite nth_error_app1; [exact Hv|].
      apply nth_error_Some; congruence.
    + rewrite nth_error_app2 by lia.
      replace (S i * w + k - List.length l0) with (i * w + k) by lia. eauto.
Qed.

Lemma single_mathe (r : res string V) :
  (do v <- mathe r; Ok [v]) = mathe (single r).
Proof. destruct r; reflexivity. Qed.

Lemma apply_op_meaning op (x y : V) : apply_op op x y = mathe (op_meaning op x y).
Proof.
  destruct op; cbn -[add sub mult neg div cross get pow sin cos tan abs sqrt root ln arcsin arccos arctan det inv];
    rewrite ?single_mathe; try reflexivity.
  destruct (add x y); cbn -[sub]; try reflexivity. destruct (sub x y); reflexivity.
Qed.

Lemma op_meaning_width op (x y : V) vs : op_meaning op x y = Ok vs -> List.length vs = op_width op.
Proof.
  assert (Hs : forall r : res string V, single r = Ok vs -> List.length vs = 1).
  { intros [v| | |]; cbn; try discriminate. intros [= <-]; reflexivity. }
  destruct op; cbn [op_meaning op_width]; try apply Hs; try (intros [= <-]; reflexivity).
  destruct (add x y); cbn [bind]; try discriminate. destruct (sub x y); cbn [bind]; try discriminate.
  intros [= <-]; reflexivity.
Qed.

Definition grid (op : SimpleOp) (lv rv : list V) : res EvalError (list V) :=
  concatM (fun i => concatM (fun j => apply_op op i j) rv) lv.

Lemma row_ok op (x : V) rv row :
  concatM (fun j => apply_op op x j) rv = Ok row <->
  exists vss, Forall2 (fun y vs => op_meaning op x y = Ok vs) rv vss /\ row = List.concat vss.
Proof.
  rewrite concatM_ok_iff. split; intros (vss & H & ->); exists vss; split; auto.
  - apply mapM_ok_iff in H. eapply Forall2_impl; [|exact H]. cbn; intros y vs Hy.
    rewrite apply_op_meaning in Hy. now apply map_err_ok in Hy.
  - apply mapM_ok_iff. eapply Forall2_impl; [|exact H]. cbn; intros y vs Hy.
    rewrite apply_op_meaning. now apply map_err_ok.
Qed.

Lemma Forall2_nth {A B} (P : A -> B -> Prop) l1 l2 i x :
  Forall2 P l1 l2 -> nth_error l1 i = Some x -> exists y, nth_error l2 i = Some y /\ P x y.
Proof.
  intros H; revert i; induction H as [|a b l1 l2 Hab H IH]; intros [|i] Hi; cbn in *; try discriminate.
  - injection Hi as ->; eauto.
  - eauto.
Qed.

Lemma Forall2_nth_r {A B} (P : A -> B -> Prop) l1 l2 i y :
  Forall2 P l1 l2 -> nth_error l2 i = Some y -> exists x, nth_error l1 i = Some x /\ P x y.
Proof.
  intros H; revert i; induction H as [|a b l1 l2 Hab H IH]; intros [|i] Hi; cbn in *; try discriminate.
  - injection Hi as ->; eauto.
  - eauto.
Qed.

Lemma Forall2_In_r {A B} (P : A -> B -> Prop) l1 l2 y :
  Forall2 P l1 l2 -> In y l2 -> exists x, In x l1 /\ P x y.
Proof.
  intros H; induction H as [|a b l1 l2 Hab H IH]; cbn; [easy|].
  intros [<-|Hin]; [eauto|]. destruct (IH Hin) as (x & ? & ?); eauto.
Qed.

Lemma row_width op (x : V) rv vss :
  Forall2 (fun y vs => op_meaning op x y = Ok vs) rv vss ->
  forall l, In l vss -> List.length l = op_width op.
Proof. intros H l Hl. destruct (Forall2_In_r _ _ _ _ H Hl) as (y & _ & Hy). eapply op_meaning_width, Hy. Qed.

Lemma grid_table op lv rv res : grid op lv rv = Ok res -> is_table op lv rv res.
Proof.
  intros H. apply concatM_ok_iff in H as (rows & H & ->). apply mapM_ok_iff in H.
  assert (Hw : forall l, In l rows -> List.length l = List.length rv * op_width op).
  { intros row Hrow. destruct (Forall2_In_r _ _ _ _ H Hrow) as (x & _ & Hx).
    apply row_ok in Hx as (vss & Hv & ->).
    rewrite (proj1 (concat_grid _ vss (row_width _ _ _ _ Hv))), (Forall2_length Hv). reflexivity. }
  destruct (concat_grid _ rows Hw) as [Hl Hn].
  split; [rewrite Hl, <- (Forall2_length H); lia|].
  intros i j x y Hi Hj.
  destruct (Forall2_nth _ _ _ _ _ H Hi) as (row & Hrow & Hx).
  apply row_ok in Hx as (vss & Hv & ->).
  destruct (Forall2_nth _ _ _ _ _ Hv Hj) as (vs & Hvs & Hy).
  exists vs; split; [exact Hy|]; split; [eapply op_meaning_width, Hy|].
  intros k v Hk.
  replace ((i * List.length rv + j) * op_width op + k)
    with (i * (List.length rv * op_width op) + (j * op_width op + k)) by lia.
  eapply Hn; [exact Hrow|].
  apply (proj2 (concat_grid _ vss (row_width _ _ _ _ Hv)) j vs k v Hvs Hk).
Qed.

Lemma table_unique op lv rv r1 r2 : is_table op lv rv r1 -> is_table op lv rv r2 -> r1 = r2.
Proof.
  intros [L1 H1] [L2 H2].
  assert (Hall : forall n, nth_error r1 n = nth_error r2 n).
  { intros n. destruct (Nat.lt_ge_cases n (List.length r1)) as [Hn|Hn].
    2:{ rewrite (proj2 (nth_error_None r1 n)) by lia. symmetry; apply nth_error_None; lia. }
    assert (Hw : op_width op <> 0) by (destruct op; discriminate).
    assert (Hr : List.length rv <> 0) by (intros E; rewrite E, Nat.mul_0_r in L1; cbn in L1; lia).
    set (m := n / op_width op). set (k := n mod op_width op).
    assert (Hnk : n = m * op_width op + k) by (rewrite (Nat.div_mod n (op_width op) Hw); lia).
    assert (Hk : k < op_width op) by now apply Nat.mod_upper_bound.
    set (i := m / List.length rv). set (j := m mod List.length rv).
    assert (Hmj : m = i * List.length rv + j) by (rewrite (Nat.div_mod m (List.length rv) Hr); lia).
    assert (Hj : j < List.length rv) by now apply Nat.mod_upper_bound.
    assert (Hi : i < List.length lv).
    { apply Nat.div_lt_upper_bound; [exact Hr|]. apply Nat.div_lt_upper_bound; [exact Hw|].
      rewrite L1 in Hn. eapply Nat.lt_le_trans; [exact Hn|]. nia. }
    destruct (nth_error lv i) as [x|] eqn:Ex; [|apply nth_error_None in Ex; lia].
    destruct (nth_error rv j) as [y|] eqn:Ey; [|apply nth_error_None in Ey; lia].
    destruct (H1 i j x y Ex Ey) as (vs & Hvs & Hlen & Hv1).
    destruct (H2 i j x y Ex Ey) as (vs' & Hvs' & _ & Hv2).
    rewrite Hvs in Hvs'; injection Hvs' as <-.
    destruct (nth_error vs k) as [v|] eqn:Ev; [|apply nth_error_None in Ev; lia].
    rewrite Hnk, Hmj, (Hv1 k v Ev), (Hv2 k v Ev). reflexivity. }
  clear -Hall. revert r2 Hall; induction r1 as [|a r1 IH]; intros [|b r2] H; auto.
  - specialize (H 0); discriminate.
  - specialize (H 0); discriminate.
  - f_equal; [specialize (H 0); cbn in H; congruence|]. apply IH; intros n; apply (H (S n)).
Qed.

(** ** Composition of outcomes *)
Definition evto {E A} (g : nat -> res E A) (r : res E A) : Prop :=
  exists F, forall f, F <= f -> g f = r.

Lemma evto_const {E A} (r : res E A) : evto (fun _ => r) r.
Proof. exists 0; auto. Qed.
Lemma evto_bind {E A B} (g : nat -> res E A) (h : nat -> A -> res E B) a r :
  evto g (Ok a) -> evto (fun f => h f a) r -> evto (fun f => bind (g f) (h f)) r.
Proof.
  intros [F1 H1] [F2 H2]; exists (Nat.max F1 F2); intros f Hf.
  rewrite H1 by lia; cbn. apply H2; lia.
Qed.
Lemma evto_bind_err {E A B} (g : nat -> res E A) (h : nat -> A -> res E B) e :
  evto g (Err e) -> evto (fun f => bind (g f) (h f)) (Err e).
Proof. intros [F1 H1]; exists F1; intros f Hf. now rewrite H1. Qed.
Lemma evto_bind_panic {E A B} (g : nat -> res E A) (h : nat -> A -> res E B) :
  evto g Panic -> evto (fun f => bind (g f) (h f)) Panic.
Proof. intros [F1 H1]; exists F1; intros f Hf. now rewrite H1. Qed.
Lemma evto_mapM {E A B} (g : nat -> A -> res E B) l ys :
  Forall2 (fun x y => evto (fun f => g f x) (Ok y)) l ys ->
  evto (fun f => mapM (g f) l) (Ok ys).
Proof.
  intros H; induction H as [|x y l ys [F1 H1] H [F2 H2]]; [exists 0; reflexivity|].
  exists (Nat.max F1 F2); intros f Hf; cbn. rewrite H1, H2 by lia. reflexivity.
Qed.
Lemma evto_mapM_err {E A B} (g : nat -> A -> res E B) l1 x l2 ys e :
  Forall2 (fun x y => evto (fun f => g f x) (Ok y)) l1 ys ->
  evto (fun f => g f x) (Err e) ->
  evto (fun f => mapM (g f) (l1 ++ x :: l2)) (Err e).
Proof.
  intros H [F2 H2]. apply evto_mapM in H as [F1 H1].
  exists (Nat.max F1 F2); intros f Hf. rewrite mapM_app, H1 by lia; cbn. now rewrite H2 by lia.
Qed.
Lemma evto_S {E A} (g : nat -> res E A) r : evto (fun f => g (S f)) r -> evto g r.
Proof.
  intros [F H]; exists (S F); intros [|f] Hf; [lia|]. apply H; lia.
Qed.

Lemma outcome_in_evto l b c r :
  outcome_in l b c r <-> r <> Fuel /\ evto (fun f => eval_rec f b c l) r.
Proof. reflexivity. Qed.

Lemma outcome_in_unique l b c r1 r2 : outcome_in l b c r1 -> outcome_in l b c r2 -> r1 = r2.
Proof.
  intros [_ [f1 H1]] [_ [f2 H2]].
  rewrite <- (H1 (Nat.max f1 f2)), <- (H2 (Nat.max f1 f2)); auto; lia.
Qed.

Lemma outcome_in_intro f l b c r : eval_rec f b c l = r -> r <> Fuel -> outcome_in l b c r.
Proof.
  intros H Hr; split; [exact Hr|]. exists f; intros f' Hf.
  rewrite <- H in *. apply rle_eq; [now apply eval_rec_mono|exact Hr].
Qed.

Lemma scalar_outcome l c s : outcome_in l (AScalar s) c (Ok [Scalar s]).
Proof. split; [discriminate|]. apply evto_S. cbn. apply evto_const. Qed.

Lemma var_outcome l c n :
  outcome_in l (AVar n) c
    (match lookup_var c n with Some v => Ok (var_values v) | None => Err (NoVariable n) end).
Proof.
  split; [destruct (lookup_var c n); discriminate|]. apply evto_S. cbn. apply evto_const.
Qed.

Lemma list_outcome l c es vss :
  Forall2 (fun e vs => outcome_in l e c (Ok vs)) es vss ->
  outcome_in l (AList es) c (Ok (List.concat vss)).
Proof.
  intros H; split; [discriminate|]. apply evto_S. cbn. unfold concatM.
  eapply (evto_bind _ (fun f ls => Ok (List.concat ls))); [|apply evto_const].
  apply evto_mapM. eapply Forall2_impl; [|exact H]. intros e vs [_ He]; exact He.
Qed.

Lemma list_outcome_err l c es1 e es2 vss er :
  Forall2 (fun e vs => outcome_in l e c (Ok vs)) es1 vss ->
  outcome_in l e c (Err er) ->
  outcome_in l (AList (es1 ++ e :: es2)) c (Err er).
Proof.
  intros H [_ He]; split; [discriminate|]. apply evto_S. cbn. unfold concatM.
  apply (evto_bind_err _ (fun f ls => Ok (List.concat ls))).
  eapply evto_mapM_err; [|exact He]. eapply Forall2_impl; [|exact H]. intros ? ? [_ ?]; assumption.
Qed.

Lemma scalars_or_ok e ss : scalars_or e (map (@Scalar N) ss) = Ok ss.
Proof.
  unfold scalars_or. rewrite mapM_map; cbn.
  rewrite (mapM_total _ (fun x => x)); [now rewrite map_id|reflexivity].
Qed.
Lemma scalars_or_inv e vs ss : scalars_or e vs = Ok ss -> vs = map (@Scalar N) ss.
Proof.
  unfold scalars_or; intros H; apply mapM_ok_iff in H.
  induction H as [|v s vs ss Hv H IH]; cbn; [reflexivity|].
  destruct v; cbn in Hv; try discriminate. injection Hv as ->. now f_equal.
Qed.
Lemma scalars_or_err e vs : (exists v, In v vs /\ get_scalar v = None) -> scalars_or e vs = Err e.
Proof.
  unfold scalars_or; induction vs as [|v vs IH]; intros (w & Hin & Hw); [destruct Hin|].
  cbn. destruct (get_scalar v) as [s|] eqn:E; cbn; [|reflexivity].
  rewrite IH; [reflexivity|]. destruct Hin as [->|Hin]; [congruence|eauto].
Qed.

Lemma vector_outcome l c es sss :
  Forall2 (fun e ss => outcome_in l e c (Ok (map Scalar ss))) es sss ->
  outcome_in l (AVector es) c (Ok (map Vector (choices sss))).
Proof.
  intros H; split; [discriminate|]. apply evto_S. cbn. rewrite <- cart_prod_choices.
  eapply (evto_bind _ (fun f ls => Ok (map Vector (cart_prod ls)))); [|apply evto_const].
  apply (evto_mapM (fun f i => do vs <- eval_rec f i c l; scalars_or NonScalarInVector vs)).
  eapply Forall2_impl; [|exact H]. cbn; intros e ss [_ He].
  eapply (evto_bind _ (fun f vs => scalars_or NonScalarInVector vs)); [exact He|].
  rewrite scalars_or_ok. apply evto_const.
Qed.

Lemma vector_outcome_nonscalar l c es1 e es2 sss vs v :
  Forall2 (fun e ss => outcome_in l e c (Ok (map Scalar ss))) es1 sss ->
  outcome_in l e c (Ok vs) -> In v vs -> is_scalar v = false ->
  outcome_in l (AVector (es1 ++ e :: es2)) c (Err NonScalarInVector).
Proof.
  intros H [_ He] Hin Hv; split; [discriminate|]. apply evto_S. cbn.
  apply (evto_bind_err _ (fun f ls => Ok (map Vector (cart_prod ls)))).
  eapply (evto_mapM_err (fun f i => do vs <- eval_rec f i c l; scalars_or NonScalarInVector vs)).
  - eapply Forall2_impl; [|exact H]. cbn; intros e' ss [_ He'].
    eapply (evto_bind _ (fun f vs => scalars_or NonScalarInVector vs)); [exact He'|].
    rewrite scalars_or_ok. apply evto_const.
  - eapply (evto_bind _ (fun f vs => scalars_or NonScalarInVector vs)); [exact He|].
    rewrite scalars_or_err; [apply evto_const|].
    exists v; split; [exact Hin|]. destruct v; cbn in *; congruence.
Qed.

Lemma matrix_outcome_nonscalar l c rows1 es1 e es2 rows2 ssss sss vs v :
  Forall2 (Forall2 (fun e ss => outcome_in l e c (Ok (map Scalar ss)))) rows1 ssss ->
  Forall2 (fun e ss => outcome_in l e c (Ok (map Scalar ss))) es1 sss ->
  outcome_in l e c (Ok vs) -> In v vs -> is_scalar v = false ->
  outcome_in l (AMatrix (rows1 ++ (es1 ++ e :: es2) :: rows2)) c (Err NonScalarInMatrix).
Proof.
  intros Hr H [_ He] Hin Hv; split; [discriminate|]. apply evto_S. cbn.
  apply (evto_bind_err _ (fun f ls => Ok (map Matrix (cart_prod (map cart_prod ls))))).
  eapply (evto_mapM_err (fun f => mapM (fun i => do vs <- eval_rec f i c l; scalars_or NonScalarInMatrix vs))).
  - eapply Forall2_impl; [|exact Hr]. cbn; intros row sss' Hrow.
    apply (evto_mapM (fun f i => do vs <- eval_rec f i c l; scalars_or NonScalarInMatrix vs)).
    eapply Forall2_impl; [|exact Hrow]. cbn; intros e' ss [_ He'].
    eapply (evto_bind _ (fun f vs => scalars_or NonScalarInMatrix vs)); [exact He'|].
    rewrite scalars_or_ok. apply evto_const.
  - eapply (evto_mapM_err (fun f i => do vs <- eval_rec f i c l; scalars_or NonScalarInMatrix vs)).
    + eapply Forall2_impl; [|exact H]. cbn; intros e' ss [_ He'].
      eapply (evto_bind _ (fun f vs => scalars_or NonScalarInMatrix vs)); [exact He'|].
      rewrite scalars_or_ok. apply evto_const.
    + eapply (evto_bind _ (fun f vs => scalars_or NonScalarInMatrix vs)); [exact He|].
      rewrite scalars_or_err; [apply evto_const|].
      exists v; split; [exact Hin|]. destruct v; cbn in *; congruence.
Qed.

Lemma matrix_outcome l c rows ssss :
  Forall2 (Forall2 (fun e ss => outcome_in l e c (Ok (map Scalar ss)))) rows ssss ->
  outcome_in l (AMatrix rows) c (Ok (map Matrix (choices (map choices ssss)))).
Proof.
  intros H; split; [discriminate|]. apply evto_S. cbn. rewrite <- cart_prod_choices.
  rewrite <- (map_ext _ _ cart_prod_choices).
  eapply (evto_bind _ (fun f ls => Ok (map Matrix (cart_prod (map cart_prod ls))))); [|apply evto_const].
  apply (evto_mapM (fun f => mapM (fun i => do vs <- eval_rec f i c l; scalars_or NonScalarInMatrix vs))).
  eapply Forall2_impl; [|exact H]. cbn; intros row sss Hrow.
  apply (evto_mapM (fun f i => do vs <- eval_rec f i c l; scalars_or NonScalarInMatrix vs)).
  eapply Forall2_impl; [|exact Hrow]. cbn; intros e ss [_ He].
  eapply (evto_bind _ (fun f vs => scalars_or NonScalarInMatrix vs)); [exact He|].
  rewrite scalars_or_ok. apply evto_const.
Qed.

(** The value of a constant expression. *)
Lemma choices_singletons {A} (l : list A) : choices (map (fun x => [x]) l) = [l].
Proof. induction l as [|x l IH]; cbn; [reflexivity|]. now rewrite IH. Qed.

Lemma from_value_outcome l c v : outcome_in l (ast_from_value v) c (Ok [v]).
Proof.
  destruct v as [m|v|s]; cbn [ast_from_value].
  - assert (E : Ok [Matrix m] = @Ok EvalError _ (map Matrix (choices (map choices
               (map (map (fun x => [x])) m))))).
    { rewrite map_map. rewrite (map_ext _ (fun r => [r])) by (intros; apply choices_singletons).
      now rewrite choices_singletons. }
    rewrite E. apply matrix_outcome.
    clear E; induction m as [|r m IH]; cbn; constructor; [|exact IH].
    induction r as [|x r IHr]; cbn; constructor; [|exact IHr]. apply scalar_outcome.
  - assert (E : Ok [Vector v] = @Ok EvalError _ (map Vector (choices (map (fun x => [x]) v))))
      by now rewrite choices_singletons.
    rewrite E. apply vector_outcome.
    clear E; induction v as [|x r IHr]; cbn; constructor; [|exact IHr]. apply scalar_outcome.
  - apply scalar_outcome.
Qed.

(** ** Operations *)
Lemma op_outcome_grid l c op a b lv rv :
  outcome_in l a c (Ok lv) -> outcome_in l b c (Ok rv) -> grid op lv rv <> Fuel ->
  outcome_in l (AOp op a b) c (grid op lv rv).
Proof.
  intros [_ Ha] [_ Hb] Hg; split; [exact Hg|]. apply evto_S. cbn.
  eapply (evto_bind _ (fun f lv => do rv <- eval_rec f b c l;
    concatM (fun i => concatM (fun j => apply_op op i j) rv) lv)); [exact Ha|].
  eapply (evto_bind _ (fun f rv => concatM (fun i => concatM (fun j => apply_op op i j) rv) lv)); [exact Hb|].
  apply evto_const.
Qed.

Lemma op_outcome_left_err l c op a b e :
  outcome_in l a c (Err e) -> outcome_in l (AOp op a b) c (Err e).
Proof.
  intros [_ Ha]; split; [discriminate|]. apply evto_S. cbn.
  apply (evto_bind_err _ (fun f lv => do rv <- eval_rec f b c l;
    concatM (fun i => concatM (fun j => apply_op op i j) rv) lv)); exact Ha.
Qed.
Lemma op_outcome_right_err l c op a b lv e :
  outcome_in l a c (Ok lv) -> outcome_in l b c (Err e) -> outcome_in l (AOp op a b) c (Err e).
Proof.
  intros [_ Ha] [_ Hb]; split; [discriminate|]. apply evto_S. cbn.
  eapply (evto_bind _ (fun f lv => do rv <- eval_rec f b c l;
    concatM (fun i => concatM (fun j => apply_op op i j) rv) lv)); [exact Ha|].
  apply (evto_bind_err _ (fun f rv => concatM (fun i => concatM (fun j => apply_op op i j) rv) lv)); exact Hb.
Qed.

Lemma concatM_err_iff {E A B} (f : A -> res E (list B)) l e :
  concatM f l = Err e <-> mapM f l = Err e.
Proof. unfold concatM; rewrite bind_err. split; [intros [H|(a & _ & H)]; [exact H|discriminate]|now left]. Qed.

Lemma row_err op (x : V) rv e :
  concatM (fun j => apply_op op x j) rv = Err e <->
  exists s j y, e = MathError s /\ nth_error rv j = Some y /\ op_meaning op x y = Err s /\
    forall j' y', j' < j -> nth_error rv j' = Some y' -> exists vs, op_meaning op x y' = Ok vs.
Proof.
  rewrite concatM_err_iff, mapM_err_iff. split.
  - intros (l1 & y & l2 & ys & -> & H1 & H2).
    rewrite apply_op_meaning in H2. destruct (op_meaning op x y) as [|s| |] eqn:Ey; try discriminate.
    cbn in H2; injection H2 as <-.
    exists s, (List.length l1), y; repeat split.
    + rewrite nth_error_app2, Nat.sub_diag by lia; reflexivity.
    + exact Ey.
    + intros j' y' Hj Hy. rewrite nth_error_app1 in Hy by lia.
      destruct (mapM_nth _ _ _ _ _ H1 Hy) as (vs & _ & Hvs). rewrite apply_op_meaning in Hvs.
      apply map_err_ok in Hvs; eauto.
  - intros (s & j & y & -> & Hj & Hy & Hall).
    exists (firstn j rv), y, (skipn (S j) rv).
    assert (Hok : exists ys, mapM (fun j0 => apply_op op x j0) (firstn j rv) = Ok ys).
    { assert (Hall' : forall y', In y' (firstn j rv) -> exists vs, apply_op op x y' = Ok vs).
      { intros y' Hin. apply In_nth_error in Hin as (j' & Hj').
        assert (Hlt : j' < j).
        { assert (j' < List.length (firstn j rv)) by (apply nth_error_Some; congruence).
          rewrite firstn_length in *; lia. }
        assert (Hj'' : nth_error rv j' = Some y').
        { rewrite <- (firstn_skipn j rv). rewrite nth_error_app1; [exact Hj'|].
          apply nth_error_Some; congruence. }
        destruct (Hall j' y' Hlt Hj'') as (vs & Hvs). exists vs. rewrite apply_op_meaning, Hvs; reflexivity. }
      clear -Hall'. induction (firstn j rv) as [|z l IH]; [eexists; reflexivity|].
      destruct (Hall' z (or_introl eq_refl)) as (vs & Hvs).
      destruct IH as (ys & Hys); [intros; apply Hall'; now right|].
      cbn. rewrite Hvs; cbn. rewrite Hys. eexists; reflexivity. }
    destruct Hok as (ys & Hys). exists ys. split; [|split; [exact Hys|]].
    + rewrite <- (firstn_skipn j rv) at 1. f_equal.
      clear -Hj. revert j Hj; induction rv as [|z l IH]; intros [|j] Hj; cbn in *; try discriminate.
      * congruence. * now apply IH.
    + rewrite apply_op_meaning, Hy; reflexivity.
Qed.

Lemma nth_error_split_at {A} (l : list A) i x :
  nth_error l i = Some x -> l = firstn i l ++ x :: skipn (S i) l.
Proof.
  revert i; induction l as [|z l IH]; intros [|i] H; cbn in *; try discriminate; [congruence|].
  f_equal; now apply IH.
Qed.
Lemma firstn_nth_error {A} (l : list A) i j x :
  nth_error (firstn i l) j = Some x -> j < i /\ nth_error l j = Some x.
Proof.
  revert i j; induction l as [|z l IH]; intros [|i] [|j] H; cbn in *; try discriminate.
  - split; [lia|exact H].
  - apply IH in H as [H1 H2]; split; [lia|exact H2].
Qed.
Lemma mapM_all_ok {E A B} (f : A -> res E B) l :
  (forall x, In x l -> exists y, f x = Ok y) -> exists ys, mapM f l = Ok ys.
Proof.
  induction l as [|x l IH]; intros H; [eexists; reflexivity|].
  destruct (H x (or_introl eq_refl)) as (y & Hy).
  destruct IH as (ys & Hys); [intros; apply H; now right|].
  cbn. rewrite Hy; cbn. rewrite Hys. eexists; reflexivity.
Qed.

Lemma row_all_ok op (x : V) rv :
  (forall j y, nth_error rv j = Some y -> exists vs, op_meaning op x y = Ok vs) ->
  exists row, concatM (fun j => apply_op op x j) rv = Ok row.
Proof.
  intros H. destruct (mapM_all_ok (fun j => apply_op op x j) rv) as (ys & Hys).
  - intros y Hin. apply In_nth_error in Hin as (j & Hj). destruct (H j y Hj) as (vs & Hvs).
    exists vs. rewrite apply_op_meaning, Hvs; reflexivity.
  - exists (List.concat ys). apply concatM_ok_iff; eauto.
Qed.

Lemma grid_err op lv rv e :
  grid op lv rv = Err e <-> exists s, e = MathError s /\ first_failure op lv rv s.
Proof.
  unfold grid. rewrite concatM_err_iff, mapM_err_iff. split.
  - intros (l1 & x & l2 & ys & -> & H1 & H2).
    apply row_err in H2 as (s & j & y & -> & Hj & Hy & Hall).
    exists s; split; [reflexivity|]. exists (List.length l1), j, x, y.
    repeat split; auto.
    + rewrite nth_error_app2, Nat.sub_diag by lia; reflexivity.
    + intros i' j' x' y' [Hlt|[Heq Hlt]] Hx' Hy'; cbn in Hlt.
      * rewrite nth_error_app1 in Hx' by lia.
        destruct (mapM_nth _ _ _ _ _ H1 Hx') as (row & _ & Hrow).
        apply row_ok in Hrow as (vss & Hv & _).
        destruct (Forall2_nth _ _ _ _ _ Hv Hy') as (vs & _ & Hvs); eauto.
      * cbn in Heq; subst i'. rewrite nth_error_app2, Nat.sub_diag in Hx' by lia. injection Hx' as <-.
        eauto.
  - intros (s & -> & i & j & x & y & Hx & Hy & Hm & Hall).
    destruct (mapM_all_ok (fun i => concatM (fun j => apply_op op i j) rv) (firstn i lv)) as (ys & Hys).
    { intros x' Hin. apply In_nth_error in Hin as (i' & Hi').
      apply firstn_nth_error in Hi' as [Hlt Hi']. apply row_all_ok.
      intros j' y' Hy'. apply (Hall i' j' x' y'); auto. left; exact Hlt. }
    exists (firstn i lv), x, (skipn (S i) lv), ys. split; [now apply nth_error_split_at|].
    split; [exact Hys|]. apply row_err. exists s, j, y. repeat split; auto.
    intros j' y' Hlt Hy'. apply (Hall i j' x y'); auto. right; split; [reflexivity|exact Hlt].
Qed.

Lemma grid_ok_iff op lv rv res : grid op lv rv = Ok res <-> is_table op lv rv res.
Proof.
  split; [apply grid_table|]. intros Ht.
  destruct (mapM_all_ok (fun i => concatM (fun j => apply_op op i j) rv) lv) as (ys & Hys).
  { intros x Hin. apply In_nth_error in Hin as (i & Hi). apply row_all_ok.
    intros j y Hy. destruct (proj2 Ht i j x y Hi Hy) as (vs & Hvs & _). eauto. }
  assert (Hg : grid op lv rv = Ok (List.concat ys)) by (apply concatM_ok_iff; eauto).
  rewrite Hg. f_equal. eapply table_unique; [|exact Ht]. now apply grid_table.
Qed.

Lemma evto_unique {E A} (g : nat -> res E A) r1 r2 : evto g r1 -> evto g r2 -> r1 = r2.
Proof.
  intros [F1 H1] [F2 H2]. rewrite <- (H1 (Nat.max F1 F2)), <- (H2 (Nat.max F1 F2)); auto; lia.
Qed.

Lemma op_evto l c op a b lv rv :
  outcome_in l a c (Ok lv) -> outcome_in l b c (Ok rv) ->
  evto (fun f => eval_rec f (AOp op a b) c l) (grid op lv rv).
Proof.
  intros [_ Ha] [_ Hb]. apply evto_S. cbn.
  eapply (evto_bind _ (fun f lv => do rv <- eval_rec f b c l;
    concatM (fun i => concatM (fun j => apply_op op i j) rv) lv)); [exact Ha|].
  eapply (evto_bind _ (fun f rv => concatM (fun i => concatM (fun j => apply_op op i j) rv) lv)); [exact Hb|].
  apply evto_const.
Qed.

Lemma op_outcome_iff l c op a b lv rv r :
  outcome_in l a c (Ok lv) -> outcome_in l b c (Ok rv) ->
  (outcome_in l (AOp op a b) c r <-> r <> Fuel /\ grid op lv rv = r).
Proof.
  intros Ha Hb. pose proof (op_evto l c op a b lv rv Ha Hb) as H. split.
  - intros [Hr He]; split; [exact Hr|]. exact (evto_unique _ _ _ H He).
  - intros [Hr <-]; split; [exact Hr|exact H].
Qed.

(** ** Function calls *)
Lemma call_outcome l c name args fn vss rs :
  l <> name -> lookup_fun c name = Some fn ->
  List.length args = List.length (fun_inputs fn) ->
  Forall2 (fun e vs => outcome_in l e c (Ok vs)) args vss ->
  Forall2 (fun p vs => outcome_in name (fun_ast fn)
             (mkCtx (call_vars (fun_inputs fn) p (vars c)) (funs c)) (Ok vs)) (choices vss) rs ->
  outcome_in l (AFun name args) c (Ok (List.concat rs)).
Proof.
  intros Hl Hf Hn Ha Hb; split; [discriminate|]. apply evto_S. cbn.
  rewrite (proj2 (str_eqb_neq l name) Hl), Hf, Hn, Nat.eqb_refl; cbn [negb].
  set (body := fun f p => eval_rec f (fun_ast fn) (mkCtx (call_vars (fun_inputs fn) p (vars c)) (funs c)) name).
  eapply (evto_bind _ (fun f args => concatM (body f) (cart_prod args))).
  - apply (evto_mapM (fun f i => eval_rec f i c l)). eapply Forall2_impl; [|exact Ha]. intros ? ? [_ ?]; assumption.
  - cbn. rewrite cart_prod_choices. unfold concatM.
    eapply (evto_bind _ (fun f ls => Ok (List.concat ls))); [|apply evto_const].
    apply (evto_mapM body). eapply Forall2_impl; [|exact Hb]. intros ? ? [_ ?]; assumption.
Qed.

Lemma call_outcome_body_err l c name args fn vss ps1 p ps2 rs e :
  l <> name -> lookup_fun c name = Some fn ->
  List.length args = List.length (fun_inputs fn) ->
  Forall2 (fun e vs => outcome_in l e c (Ok vs)) args vss ->
  choices vss = ps1 ++ p :: ps2 ->
  Forall2 (fun p vs => outcome_in name (fun_ast fn)
             (mkCtx (call_vars (fun_inputs fn) p (vars c)) (funs c)) (Ok vs)) ps1 rs ->
  outcome_in name (fun_ast fn) (mkCtx (call_vars (fun_inputs fn) p (vars c)) (funs c)) (Err e) ->
  outcome_in l (AFun name args) c (Err e).
Proof.
  intros Hl Hf Hn Ha Hch Hb [_ He]; split; [discriminate|]. apply evto_S. cbn.
  rewrite (proj2 (str_eqb_neq l name) Hl), Hf, Hn, Nat.eqb_refl; cbn [negb].
  set (body := fun f p => eval_rec f (fun_ast fn) (mkCtx (call_vars (fun_inputs fn) p (vars c)) (funs c)) name).
  eapply (evto_bind _ (fun f args => concatM (body f) (cart_prod args))).
  - apply (evto_mapM (fun f i => eval_rec f i c l)). eapply Forall2_impl; [|exact Ha]. intros ? ? [_ ?]; assumption.
  - cbn. rewrite cart_prod_choices, Hch. unfold concatM.
    apply (evto_bind_err _ (fun f ls => Ok (List.concat ls))).
    eapply (evto_mapM_err body); [|exact He]. eapply Forall2_impl; [|exact Hb]. intros ? ? [_ ?]; assumption.
Qed.

Lemma call_recursive name args c : outcome_in name (AFun name args) c (Err RecursiveFunction).
Proof. split; [discriminate|]. apply evto_S. cbn. rewrite str_eqb_refl. apply evto_const. Qed.

Lemma call_unknown l name args c :
  l <> name -> lookup_fun c name = None -> outcome_in l (AFun name args) c (Err (NoFunction name)).
Proof.
  intros Hl Hf; split; [discriminate|]. apply evto_S. cbn.
  rewrite (proj2 (str_eqb_neq l name) Hl), Hf. apply evto_const.
Qed.

Lemma call_arity l name args c fn :
  l <> name -> lookup_fun c name = Some fn -> List.length args <> List.length (fun_inputs fn) ->
  outcome_in l (AFun name args) c
    (Err (WrongNumberOfArgs (List.length (fun_inputs fn)) (List.length args))).
Proof.
  intros Hl Hf Hn; split; [discriminate|]. apply evto_S. cbn.
  rewrite (proj2 (str_eqb_neq l name) Hl), Hf, (proj2 (Nat.eqb_neq _ _) Hn). cbn [negb]; apply evto_const.
Qed.

Lemma call_arg_err l name args1 a args2 c fn vss e :
  l <> name -> lookup_fun c name = Some fn ->
  List.length (args1 ++ a :: args2) = List.length (fun_inputs fn) ->
  Forall2 (fun e vs => outcome_in l e c (Ok vs)) args1 vss -> outcome_in l a c (Err e) ->
  outcome_in l (AFun name (args1 ++ a :: args2)) c (Err e).
Proof.
  intros Hl Hf Hn Ha [_ He]; split; [discriminate|]. apply evto_S. cbn.
  rewrite (proj2 (str_eqb_neq l name) Hl), Hf, Hn, Nat.eqb_refl; cbn [negb].
  set (body := fun f p => eval_rec f (fun_ast fn) (mkCtx (call_vars (fun_inputs fn) p (vars c)) (funs c)) name).
  apply (evto_bind_err _ (fun f args => concatM (body f) (cart_prod args))).
  eapply (evto_mapM_err (fun f i => eval_rec f i c l)); [|exact He].
  eapply Forall2_impl; [|exact Ha]. intros ? ? [_ ?]; assumption.
Qed.

(** What the body of a called function sees. *)
Lemma find_app {A} (p : A -> bool) l1 l2 :
  find p (l1 ++ l2) = match find p l1 with Some x => Some x | None => find p l2 end.
Proof. induction l1 as [|x l1 IH]; cbn; [reflexivity|]. destruct (p x); auto. Qed.

Lemma find_fold_unshadowed n (outer acc : list (MVar N)) :
  find (fun v => str_eqb (var_name v) n) (fold_left push_unshadowed outer acc)
  = match find (fun v => str_eqb (var_name v) n) acc with
    | Some v => Some v
    | None => find (fun v => str_eqb (var_name v) n) outer
    end.
Proof.
  revert acc; induction outer as [|w outer IH]; intros acc; cbn [fold_left].
  - destruct (find _ acc); reflexivity.
  - rewrite IH. unfold push_unshadowed.
    destruct (existsb _ acc) eqn:Ex; cbn [find].
    + destruct (find (fun v => str_eqb (var_name v) n) acc) as [v|] eqn:Ef; [reflexivity|].
      destruct (str_eqb (var_name w) n) eqn:Ew; [|reflexivity].
      apply str_eqb_eq in Ew. apply existsb_exists in Ex as (v & Hv & He).
      apply (find_none _ _ Ef) in Hv. rewrite Ew in He. congruence.
    + rewrite find_app. cbn.
      destruct (find (fun v => str_eqb (var_name v) n) acc); [reflexivity|].
      destruct (str_eqb (var_name w) n); reflexivity.
Qed.

Lemma lookup_call_vars params p outer fs n :
  lookup_var (mkCtx (call_vars params p outer) fs) n =
  match find (fun nv => str_eqb (fst nv) n) (combine params p) with
  | Some nv => Some (mkVar (fst nv) [snd nv])
  | None => lookup_var (mkCtx outer fs) n
  end.
Proof.
  unfold lookup_var, call_vars; cbn. rewrite find_fold_unshadowed.
  induction (combine params p) as [|[k v] t IH]; cbn; [reflexivity|].
  destruct (str_eqb k n); [reflexivity|exact IH].
Qed.
End Proofs.
