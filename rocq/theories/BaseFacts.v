(** * BaseFacts: reasoning about outcomes and loops of [Base.v]. *)
From Coq Require Import List NArith ZArith Bool Lia Arith.
From Verif Require Import Base.
Import ListNotations.

(** ** Inversion of [bind], [mapM], ... *)
Lemma bind_ok {E A B} (r : res E A) (f : A -> res E B) b :
  bind r f = Ok b <-> exists a, r = Ok a /\ f a = Ok b.
Proof.
  destruct r as [a|e| |]; cbn; split; intros H; try discriminate;
    try (now destruct H as (x & H1 & H2)); eauto.
  destruct H as (x & [= <-] & H); exact H.
Qed.

Lemma bind_err {E A B} (r : res E A) (f : A -> res E B) e :
  bind r f = Err e <-> r = Err e \/ exists a, r = Ok a /\ f a = Err e.
Proof.
  destruct r as [a|e'| |]; cbn; split; intros H; try discriminate;
    try (destruct H as [H|(x & H1 & H2)]); try discriminate; eauto; try congruence.
  left; congruence.
Qed.

Lemma map_err_ok {E F A} (f : E -> F) (r : res E A) a : map_err f r = Ok a <-> r = Ok a.
Proof. destruct r; cbn; split; intros H; congruence. Qed.

Lemma unwrap_ok {E A} (o : option A) a : @unwrap E A o = Ok a <-> o = Some a.
Proof. destruct o; cbn; split; intros H; congruence. Qed.

Lemma idx_ok {E A} (l : list A) i a : @idx E A l i = Ok a <-> nth_error l i = Some a.
Proof. apply unwrap_ok. Qed.

Lemma idx_nth {E A} (l : list A) i d : i < length l -> @idx E A l i = Ok (nth i l d).
Proof. intros H; unfold idx; rewrite (nth_error_nth' l d H); reflexivity. Qed.

Lemma idx_panic {E A} (l : list A) i : length l <= i -> @idx E A l i = Panic.
Proof. intros H; unfold idx. now rewrite (proj2 (nth_error_None l i) H). Qed.

Lemma mapM_ok_iff {E A B} (f : A -> res E B) l ys :
  mapM f l = Ok ys <-> Forall2 (fun x y => f x = Ok y) l ys.
Proof.
  revert ys; induction l as [|x l IH]; intros ys; cbn.
  - split; intros H; [injection H as <-; constructor|inversion H; reflexivity].
  - split; intros H.
    + apply bind_ok in H as (y & Hy & H). apply bind_ok in H as (ys' & Hys & [= <-]).
      constructor; [exact Hy|]. now apply IH.
    + inversion H as [|? y ? ys' Hy Hys]; subst. rewrite Hy; cbn.
      apply IH in Hys; rewrite Hys; reflexivity.
Qed.

Lemma mapM_length {E A B} (f : A -> res E B) l ys : mapM f l = Ok ys -> length ys = length l.
Proof. intros H; apply mapM_ok_iff in H. now induction H; cbn; [|f_equal]. Qed.

Lemma mapM_total {E A B} (f : A -> res E B) (g : A -> B) l :
  (forall x, In x l -> f x = Ok (g x)) -> mapM f l = Ok (map g l).
Proof.
  induction l as [|x l IH]; intros H; cbn; [reflexivity|].
  rewrite (H x (or_introl eq_refl)); cbn. rewrite IH; [reflexivity|intros; apply H; now right].
Qed.

Lemma mapM_ext {E A B} (f g : A -> res E B) l :
  (forall x, In x l -> f x = g x) -> mapM f l = mapM g l.
Proof.
  induction l as [|x l IH]; intros H; cbn; [reflexivity|].
  rewrite (H x (or_introl eq_refl)), IH; [reflexivity|intros; apply H; now right].
Qed.

Lemma mapM_map {E A B C} (f : B -> res E C) (g : A -> B) l :
  mapM f (map g l) = mapM (fun x => f (g x)) l.
Proof. induction l as [|x l IH]; cbn; [reflexivity|]. now rewrite IH. Qed.

Lemma mapM_app {E A B} (f : A -> res E B) l1 l2 :
  mapM f (l1 ++ l2) = bind (mapM f l1) (fun a => bind (mapM f l2) (fun b => Ok (a ++ b))).
Proof.
  induction l1 as [|x l1 IH]; cbn; [destruct (mapM f l2); reflexivity|].
  destruct (f x); cbn; try reflexivity. rewrite IH.
  destruct (mapM f l1); cbn; try reflexivity. destruct (mapM f l2); reflexivity.
Qed.

(** The outcome of a failing loop is the outcome of the first failing step. *)
Lemma mapM_err_iff {E A B} (f : A -> res E B) l e :
  mapM f l = Err e <->
  exists l1 x l2 ys, l = l1 ++ x :: l2 /\ mapM f l1 = Ok ys /\ f x = Err e.
Proof.
  induction l as [|x l IH]; cbn.
  - split; [discriminate|]. intros (l1 & y & l2 & ys & H & _); destruct l1; discriminate.
  - split.
    + intros H; apply bind_err in H as [H|(y & Hy & H)].
      * exists [], x, l, []; repeat split; exact H.
      * apply bind_err in H as [H|(ys & Hys & H)]; [|discriminate].
        apply IH in H as (l1 & z & l2 & ys & -> & H1 & H2).
        exists (x :: l1), z, l2, (y :: ys); repeat split; cbn; try rewrite Hy, H1; auto.
    + intros (l1 & z & l2 & ys & H & H1 & H2). destruct l1 as [|w l1]; cbn in H; injection H as -> ->.
      * now rewrite H2.
      * cbn in H1. apply bind_ok in H1 as (y & Hy & H1). apply bind_ok in H1 as (ys' & Hys & H1).
        rewrite Hy; cbn. rewrite (proj2 IH); [reflexivity|].
        exists l1, z, l2, ys'; auto.
Qed.

Lemma mapM_no_panic {E A B} (f : A -> res E B) l :
  (forall x, In x l -> f x <> Panic) -> mapM f l <> Panic.
Proof.
  induction l as [|x l IH]; intros H; cbn; [discriminate|].
  pose proof (H x (or_introl eq_refl)) as Hx.
  destruct (f x); cbn; try congruence.
  assert (mapM f l <> Panic) by (apply IH; intros; apply H; now right).
  destruct (mapM f l); cbn; congruence.
Qed.

Lemma mapM_no_fuel {E A B} (f : A -> res E B) l :
  (forall x, In x l -> f x <> Fuel) -> mapM f l <> Fuel.
Proof.
  induction l as [|x l IH]; intros H; cbn; [discriminate|].
  pose proof (H x (or_introl eq_refl)) as Hx.
  destruct (f x); cbn; try congruence.
  assert (mapM f l <> Fuel) by (apply IH; intros; apply H; now right).
  destruct (mapM f l); cbn; congruence.
Qed.

Lemma mapM_In {E A B} (f : A -> res E B) l ys y :
  mapM f l = Ok ys -> In y ys -> exists x, In x l /\ f x = Ok y.
Proof.
  intros H; apply mapM_ok_iff in H; induction H as [|x z l ys Hx H IH]; cbn; [easy|].
  intros [<-|Hin]; [exists x; auto|]. destruct (IH Hin) as (w & Hw & ?); exists w; auto.
Qed.

Lemma mapM_nth {E A B} (f : A -> res E B) l ys i x :
  mapM f l = Ok ys -> nth_error l i = Some x -> exists y, nth_error ys i = Some y /\ f x = Ok y.
Proof.
  intros H; apply mapM_ok_iff in H; revert i; induction H as [|z y l ys Hx H IH]; intros i Hi;
    destruct i; cbn in *; try discriminate.
  - injection Hi as ->; eauto.
  - apply IH, Hi.
Qed.

(** ** The order "defined so far" on outcomes *)
Definition rle {E A} (r r' : res E A) : Prop := r = Fuel \/ r = r'.
Lemma rle_refl {E A} (r : res E A) : rle r r. Proof. now right. Qed.
Lemma rle_trans {E A} (a b c : res E A) : rle a b -> rle b c -> rle a c.
Proof. intros [->| ->]; [now left|]. auto. Qed.
Lemma rle_fuel {E A} (r : res E A) : rle Fuel r. Proof. now left. Qed.
Lemma rle_eq {E A} (r r' : res E A) : rle r r' -> r <> Fuel -> r' = r.
Proof. intros [->| ->]; [now intros []|reflexivity]. Qed.

Lemma rle_bind {E A B} (r r' : res E A) (f f' : A -> res E B) :
  rle r r' -> (forall a, rle (f a) (f' a)) -> rle (bind r f) (bind r' f').
Proof.
  intros [->| ->] H; [now left|]. destruct r'; cbn; try now right. apply H.
Qed.
Lemma rle_mapM {E A B} (f f' : A -> res E B) l :
  (forall a, rle (f a) (f' a)) -> rle (mapM f l) (mapM f' l).
Proof.
  intros H; induction l as [|x l IH]; cbn; [now right|].
  apply rle_bind; [apply H|intros y]. apply rle_bind; [apply IH|intros; apply rle_refl].
Qed.
Lemma rle_concatM {E A B} (f f' : A -> res E (list B)) l :
  (forall a, rle (f a) (f' a)) -> rle (concatM f l) (concatM f' l).
Proof. intros H; apply rle_bind; [now apply rle_mapM|intros; apply rle_refl]. Qed.
Lemma rle_foldM {E A S} (f f' : S -> A -> res E S) l s :
  (forall s a, rle (f s a) (f' s a)) -> rle (foldM f l s) (foldM f' l s).
Proof.
  intros H; revert s; induction l as [|x l IH]; intros s; cbn; [now right|].
  apply rle_bind; [apply H|intros; apply IH].
Qed.
Lemma rle_map_err {E F A} (g : E -> F) (r r' : res E A) :
  rle r r' -> rle (map_err g r) (map_err g r').
Proof. intros [->| ->]; [now left|now right]. Qed.

(** ** Slices *)
Lemma slice_ok {E A} (l : list A) a b :
  a <= b -> b <= length l -> @slice E A l a b = Ok (firstn (b - a) (skipn a l)).
Proof.
  intros H1 H2; unfold slice. rewrite (proj2 (Nat.leb_le a b) H1), (proj2 (Nat.leb_le b _) H2). reflexivity.
Qed.
Lemma slice_inv {E A} (l : list A) a b r :
  @slice E A l a b = Ok r -> a <= b /\ b <= length l /\ r = firstn (b - a) (skipn a l).
Proof.
  unfold slice. destruct (Nat.leb_spec a b); destruct (Nat.leb_spec b (length l)); cbn; try discriminate.
  intros [= <-]; auto.
Qed.
Lemma slice_length {E A} (l : list A) a b r :
  @slice E A l a b = Ok r -> length r = b - a.
Proof.
  intros H; apply slice_inv in H as (H1 & H2 & ->).
  rewrite firstn_length, skipn_length; lia.
Qed.

Lemma concatM_ok_iff {E A B} (f : A -> res E (list B)) l r :
  concatM f l = Ok r <-> exists ls, mapM f l = Ok ls /\ r = concat ls.
Proof.
  unfold concatM; rewrite bind_ok; split; intros (ls & H1 & H2); exists ls; split; auto; congruence.
Qed.

Lemma Forall2_impl {A B} (P Q : A -> B -> Prop) l1 l2 :
  (forall a b, P a b -> Q a b) -> Forall2 P l1 l2 -> Forall2 Q l1 l2.
Proof. intros H F; induction F; constructor; auto. Qed.

Lemma Forall2_length {A B} {P : A -> B -> Prop} {l1 l2} :
  Forall2 P l1 l2 -> length l1 = length l2.
Proof. intros F; induction F; cbn; auto. Qed.
