(** * MathsForms: closed forms of the operations on well-formed values. *)
From Coq Require Import List NArith ZArith Bool Arith Lia String.
From Verif Require Import Base BaseFacts Num Types Maths GrammarSpec.
Import ListNotations.
Local Open Scope string_scope.
Local Open Scope list_scope.

Definition tab {A} (n : nat) (f : nat -> A) : list A := map f (seq 0 n).
Definition tab2 {A} (r c : nat) (f : nat -> nat -> A) : list (list A) := tab r (fun i => tab c (f i)).
Lemma tab_length {A} n (f : nat -> A) : List.length (tab n f) = n.
Proof. unfold tab. now rewrite map_length, seq_length. Qed.
Lemma tab_nth {A} n (f : nat -> A) i d : i < n -> nth i (tab n f) d = f i.
Proof.
  intros H. unfold tab. rewrite (nth_indep _ d (f 0)) by now rewrite map_length, seq_length.
  rewrite map_nth, seq_nth by assumption. reflexivity.
Qed.
Lemma tab_nth_error {A} n (f : nat -> A) i : i < n -> nth_error (tab n f) i = Some (f i).
Proof. intros H. rewrite (nth_error_nth' _ (f 0)) by now rewrite tab_length. now rewrite tab_nth. Qed.
Lemma tab_ext {A} n (f g : nat -> A) : (forall i, i < n -> f i = g i) -> tab n f = tab n g.
Proof. intros H. unfold tab. apply map_ext_in. intros i Hi. apply in_seq in Hi. apply H. lia. Qed.
Lemma tab_id {A} (l : list A) d : tab (List.length l) (fun i => nth i l d) = l.
Proof.
  apply nth_ext with (d := d) (d' := d); [apply tab_length|]. intros i Hi. rewrite tab_length in Hi. now rewrite tab_nth.
Qed.
Lemma tab_map {A B} n (f : nat -> A) (g : A -> B) : map g (tab n f) = tab n (fun i => g (f i)).
Proof. unfold tab. apply map_map. Qed.
Lemma tab2_shape {A} r c (f : nat -> nat -> A) : shape (tab2 r c f) r c.
Proof.
  split; [apply tab_length|]. apply Forall_forall. intros l Hl. unfold tab2, tab at 1 in Hl. apply in_map_iff in Hl as (i & <- & _).
  apply tab_length.
Qed.
Lemma tab2_ext {A} r c (f g : nat -> nat -> A) : (forall i j, i < r -> j < c -> f i j = g i j) -> tab2 r c f = tab2 r c g.
Proof. intros H. apply tab_ext. intros i Hi. apply tab_ext. intros j Hj. now apply H. Qed.

Lemma mapM_tab {E A} (f : nat -> res E A) g n : (forall i, i < n -> f i = Ok (g i)) -> mapM f (seq 0 n) = Ok (tab n g).
Proof. intros H. unfold tab. apply mapM_total. intros i Hi. apply in_seq in Hi. apply H. lia. Qed.
Lemma foldM_total {E A S} (f : S -> A -> res E S) g l s : (forall s x, In x l -> f s x = Ok (g s x)) -> foldM f l s = Ok (fold_left g l s).
Proof.
  revert s; induction l as [|x l IH]; intros s H; [reflexivity|]. cbn [foldM fold_left]. rewrite H by now left. cbn [bind].
  apply IH. intros; apply H; now right.
Qed.

Section Forms.
Context {N : Num}.
Implicit Types a b m : list (list (@T N)).

(** Entry (i, j). *)
Definition ent m (i j : nat) : T := nth j (nth i m []) n0.
Definition com (v : list T) (i : nat) : T := nth i v n0.

Lemma ent_tab2 r c (f : nat -> nat -> T) i j : i < r -> j < c -> ent (tab2 r c f) i j = f i j.
Proof. intros Hi Hj. unfold ent, tab2. rewrite tab_nth by assumption. now apply tab_nth. Qed.
Lemma shape_row m r c i : shape m r c -> i < r -> List.length (nth i m []) = c.
Proof. intros [H1 H2] Hi. rewrite Forall_forall in H2. apply H2. apply nth_In. lia. Qed.
Lemma tab2_id m r c : shape m r c -> tab2 r c (ent m) = m.
Proof.
  intros H. unfold tab2. destruct H as [H1 H2]. rewrite <- H1. rewrite <- (tab_id m []) at 2. apply tab_ext. intros i Hi.
  rewrite <- (tab_id (nth i m []) n0). rewrite (shape_row m r c) by (try split; auto; lia). reflexivity.
Qed.
Lemma shape_ext m m' r c : shape m r c -> shape m' r c -> (forall i j, i < r -> j < c -> ent m i j = ent m' i j) -> m = m'.
Proof. intros H H' He. rewrite <- (tab2_id m r c H), <- (tab2_id m' r c H'). now apply tab2_ext. Qed.

Lemma idx_com {E} (v : list T) i : i < List.length v -> @idx E _ v i = Ok (com v i).
Proof. intros H. now apply idx_nth. Qed.
Lemma idx_row {E} m r c i : shape m r c -> i < r -> @idx E _ m i = Ok (nth i m []).
Proof. intros [H _] Hi. apply idx_nth. lia. Qed.
Lemma idx2_ent {E} m r c i j : shape m r c -> i < r -> j < c -> @idx2 E _ m i j = Ok (ent m i j).
Proof.
  intros H Hi Hj. unfold idx2. rewrite (idx_row m r c) by assumption. cbn [bind]. apply idx_nth.
  now rewrite (shape_row m r c).
Qed.
Lemma row0_len_shape {E} m r c : shape m r c -> 0 < r -> @row0_len E _ m = Ok c.
Proof. intros H Hr. unfold row0_len. rewrite (idx_row m r c) by assumption. cbn [bind]. now rewrite (shape_row m r c). Qed.

(** Left-to-right sum of [n] terms starting at 0. *)
Definition nsum (n : nat) (f : nat -> T) : T := fold_left (fun s k => nadd s (f k)) (seq 0 n) n0.

Lemma vadd_form (a b : list T) : List.length a = List.length b ->
  vadd a b = Ok (Vector (tab (List.length a) (fun i => nadd (com a i) (com b i)))).
Proof.
  intros H. unfold vadd. rewrite H, Nat.eqb_refl. cbn [negb]. rewrite (mapM_tab _ (fun i => nadd (com a i) (com b i))); [reflexivity|].
  intros i Hi. rewrite !idx_com by lia. reflexivity.
Qed.
Lemma vadd_err (a b : list T) : List.length a <> List.length b -> vadd a b = Err "Vectors have different dimensions!".
Proof. intros H. unfold vadd. apply Nat.eqb_neq in H. now rewrite H. Qed.
Lemma madd_form a b r c : 0 < r -> shape a r c -> shape b r c ->
  madd a b = Ok (Matrix (tab2 r c (fun i j => nadd (ent a i j) (ent b i j)))).
Proof.
  intros Hr Ha Hb. unfold madd. rewrite (row0_len_shape a r c), (row0_len_shape b r c) by assumption.
  destruct Ha as [A1 A2], Hb as [B1 B2]. rewrite A1, B1, Nat.eqb_refl. cbn [negb bind]. rewrite Nat.eqb_refl. cbn [negb].
  rewrite (mapM_tab _ (fun i => tab c (fun j => nadd (ent a i j) (ent b i j)))); [reflexivity|].
  intros i Hi. apply mapM_tab. intros j Hj. rewrite (idx2_ent a r c), (idx2_ent b r c) by (try split; auto). reflexivity.
Qed.
Lemma madd_err a b r c r' c' : 0 < r -> 0 < r' -> shape a r c -> shape b r' c' -> r <> r' \/ c <> c' ->
  madd a b = Err "Matrices have different dimensions!".
Proof.
  intros Hr Hr' Ha Hb H. unfold madd. rewrite (row0_len_shape a r c), (row0_len_shape b r' c') by assumption.
  destruct Ha as [A1 A2], Hb as [B1 B2]. rewrite A1, B1.
  destruct (Nat.eqb_spec r r'); cbn [negb bind]; [|reflexivity]. destruct (Nat.eqb_spec c c'); [tauto|reflexivity].
Qed.
Lemma com_map f (v : list T) i : i < List.length v -> com (map f v) i = f (com v i).
Proof. intros H. unfold com. rewrite (nth_indep _ n0 (f n0)) by now rewrite map_length. apply map_nth. Qed.
Lemma vsub_form (a b : list T) : List.length a = List.length b ->
  vsub a b = Ok (Vector (tab (List.length a) (fun i => nadd (com a i) (nmul (com b i) nm1)))).
Proof.
  intros H. unfold vsub. rewrite vadd_form by now rewrite map_length. do 2 f_equal. apply tab_ext. intros i Hi.
  rewrite com_map by lia. reflexivity.
Qed.
Lemma mneg_form {E} b r c (g : T -> T) : 0 < r -> shape b r c ->
  mapM (fun i => do cb <- @row0_len E _ b; mapM (fun j => do x <- idx2 b i j; Ok (g x)) (seq 0 cb)) (seq 0 (List.length b))
  = Ok (tab2 r c (fun i j => g (ent b i j))).
Proof.
  intros Hr Hb. rewrite (row0_len_shape b r c) by assumption. cbn [bind]. rewrite (proj1 Hb).
  apply mapM_tab. intros i Hi. apply mapM_tab. intros j Hj. rewrite (idx2_ent b r c) by assumption. reflexivity.
Qed.
Lemma msub_form a b r c : 0 < r -> shape a r c -> shape b r c ->
  msub a b = Ok (Matrix (tab2 r c (fun i j => nadd (ent a i j) (nmul (ent b i j) nm1)))).
Proof.
  intros Hr Ha Hb. unfold msub. rewrite (mneg_form b r c (fun x => nmul x nm1)) by assumption. cbn [bind].
  rewrite (madd_form _ _ r c); [|assumption..|apply tab2_shape]. do 2 f_equal. apply tab2_ext. intros i j Hi Hj. now rewrite ent_tab2.
Qed.
Lemma msub_err a b r c r' c' : 0 < r -> 0 < r' -> shape a r c -> shape b r' c' -> r <> r' \/ c <> c' ->
  msub a b = Err "Matrices have different dimensions!".
Proof.
  intros Hr Hr' Ha Hb H. unfold msub. rewrite (mneg_form b r' c' (fun x => nmul x nm1)) by assumption. cbn [bind].
  apply (madd_err _ _ r c r' c'); auto using tab2_shape.
Qed.
Lemma smmult_form x b r c : 0 < r -> shape b r c ->
  smmult x b = Ok (Matrix (tab2 r c (fun i j => nmul (ent b i j) x))).
Proof. intros Hr Hb. unfold smmult. rewrite (mneg_form b r c (fun y => nmul y x)) by assumption. reflexivity. Qed.
Lemma svmult_form x (b : list T) : svmult x b = Ok (Vector (tab (List.length b) (fun i => nmul (com b i) x))).
Proof.
  unfold svmult. do 2 f_equal. rewrite <- (tab_id b n0) at 1. apply tab_map.
Qed.
Lemma vvmult_form (a b : list T) : List.length a = List.length b ->
  vvmult a b = Ok (Scalar (nsum (List.length a) (fun k => nmul (com a k) (com b k)))).
Proof.
  intros H. unfold vvmult. rewrite H, Nat.eqb_refl. cbn [negb].
  rewrite (foldM_total _ (fun s k => nadd s (nmul (com a k) (com b k)))); [reflexivity|].
  intros s i Hi. apply in_seq in Hi. rewrite !idx_com by lia. reflexivity.
Qed.
Lemma vvdiv_form (a b : list T) : List.length a = List.length b ->
  vvdiv a b = Ok (Scalar (nsum (List.length a) (fun k => ndiv (com a k) (com b k)))).
Proof.
  intros H. unfold vvdiv. rewrite H, Nat.eqb_refl. cbn [negb].
  rewrite (foldM_total _ (fun s k => nadd s (ndiv (com a k) (com b k)))); [reflexivity|].
  intros s i Hi. apply in_seq in Hi. rewrite !idx_com by lia. reflexivity.
Qed.
Lemma mvmult_form a (b : list T) r c : 0 < r -> shape a r c -> List.length b = c ->
  mvmult a b = Ok (Vector (tab r (fun i => nsum c (fun k => nmul (ent a i k) (com b k))))).
Proof.
  intros Hr Ha Hb. unfold mvmult. rewrite (row0_len_shape a r c) by assumption. cbn [bind]. rewrite Hb, Nat.eqb_refl. cbn [negb].
  rewrite (proj1 Ha). rewrite (mapM_tab _ (fun i => nsum c (fun k => nmul (ent a i k) (com b k)))); [reflexivity|].
  intros i Hi. rewrite (idx_row a r c) by assumption. cbn [bind]. rewrite (shape_row a r c) by assumption.
  apply foldM_total. intros s k Hk. apply in_seq in Hk.
  rewrite (idx_nth (nth i a []) k n0) by (rewrite (shape_row a r c); auto; lia). cbn [bind]. rewrite idx_com by lia. reflexivity.
Qed.
Lemma mmmult_form a b r c c' : 0 < r -> 0 < c -> shape a r c -> shape b c c' ->
  mmmult a b = Ok (Matrix (tab2 r c' (fun i j => nsum c (fun k => nmul (ent a i k) (ent b k j))))).
Proof.
  intros Hr Hc Ha Hb. unfold mmmult. rewrite (row0_len_shape a r c), (row0_len_shape b c c') by assumption. cbn [bind].
  rewrite (proj1 Hb), Nat.eqb_refl, (proj1 Ha). cbn [negb].
  rewrite (mapM_tab _ (fun i => tab c' (fun j => nsum c (fun k => nmul (ent a i k) (ent b k j))))); [reflexivity|].
  intros i Hi. apply mapM_tab. intros j Hj. apply foldM_total. intros s k Hk. apply in_seq in Hk.
  rewrite (idx2_ent a r c), (idx2_ent b c c') by (auto; lia). reflexivity.
Qed.

(** ** det *)
(** Cofactor expansion along row 0, as computed. *)
Definition skip (k j : nat) : nat := if Nat.ltb j k then j else S j.
Fixpoint laplace (n : nat) (a : nat -> nat -> T) {struct n} : T :=
  match n with
  | 0 => n0
  | 1 => a 0 0
  | S n' =>
      match n' with
      | S (S _) => nsum n (fun k => nmul (nmul (npowi nm1 (Z.of_nat k)) (a 0 k)) (laplace n' (fun i j => a (S i) (skip k j))))
      | _ => nsub (nmul (a 0 0) (a 1 1)) (nmul (a 0 1) (a 1 0))
      end
  end.

Lemma fold_left_ext {A B} (f g : A -> B -> A) l s : (forall s x, In x l -> f s x = g s x) -> fold_left f l s = fold_left g l s.
Proof. revert s; induction l as [|x l IH]; intros s H; [reflexivity|]. cbn. rewrite H by now left. apply IH. intros; apply H; now right. Qed.
Lemma nsum_ext n f g : (forall k, k < n -> f k = g k) -> nsum n f = nsum n g.
Proof. intros H. apply fold_left_ext. intros s k Hk. apply in_seq in Hk. now rewrite H by lia. Qed.
Lemma laplace_ext n : forall a b : nat -> nat -> T, (forall i j, i < n -> j < n -> a i j = b i j) -> laplace n a = laplace n b.
Proof.
  induction n as [|n IH]; intros a b H; [reflexivity|]. cbn [laplace].
  destruct n as [|[|n]]; [apply H; lia|rewrite !H by lia; reflexivity|].
  apply nsum_ext. intros k Hk. rewrite H by lia. f_equal. apply IH. intros i j Hi Hj. apply H; [lia|]. unfold skip.
  destruct (Nat.ltb_spec j k); lia.
Qed.
Lemma drop_col_length {A} k (l : list A) : k < List.length l -> List.length (drop_col k l) = List.length l - 1.
Proof. intros H. unfold drop_col. rewrite app_length, firstn_length, skipn_length. lia. Qed.
Lemma nth_skipn {A} (l : list A) k i d : nth i (skipn k l) d = nth (k + i) l d.
Proof. revert l; induction k as [|k IH]; intros l; [reflexivity|]. destruct l; [now destruct i|]. cbn. apply IH. Qed.
Lemma nth_firstn {A} (l : list A) k i d : i < k -> nth i (firstn k l) d = nth i l d.
Proof. revert l i; induction k as [|k IH]; intros l i H; [lia|]. destruct l; [reflexivity|]. destruct i; [reflexivity|]. cbn. apply IH. lia. Qed.
Lemma drop_col_nth k (l : list T) j : k < List.length l -> nth j (drop_col k l) n0 = nth (skip k j) l n0.
Proof.
  intros H. unfold drop_col, skip. destruct (Nat.ltb_spec j k) as [L|L].
  - rewrite app_nth1 by (rewrite firstn_length; lia). now apply nth_firstn.
  - rewrite app_nth2 by (rewrite firstn_length; lia). rewrite firstn_length, nth_skipn. f_equal. lia.
Qed.
Lemma minor_shape {A} k (m : list (list A)) n : shape m (S n) (S n) -> k < S n -> shape (minor k m) n n.
Proof.
  intros [H1 H2] Hk. split; [unfold minor; rewrite map_length; destruct m; cbn in *; lia|].
  apply Forall_forall. intros l Hl. unfold minor in Hl. apply in_map_iff in Hl as (r & <- & Hr).
  rewrite Forall_forall in H2. assert (Hl : List.length r = S n) by (apply H2; destruct m; [destruct Hr|now right]).
  rewrite drop_col_length; lia.
Qed.
Lemma minor_ent k m n i j : shape m (S n) (S n) -> k < S n -> i < n -> ent (minor k m) i j = ent m (S i) (skip k j).
Proof.
  intros H Hk Hi. unfold ent, minor. destruct m as [|r0 m]; [destruct H; discriminate|]. cbn [tl nth].
  assert (Hl : i < List.length m) by (destruct H as [H _]; cbn in H; lia).
  rewrite (nth_indep _ [] (drop_col k [])) by now rewrite map_length. rewrite map_nth. apply drop_col_nth.
  pose proof (shape_row _ _ _ (S i) H ltac:(lia)) as G. cbn [nth] in G. lia.
Qed.

Lemma forallb_shape {A} (m : list (list A)) r c : shape m r c -> forallb (fun l => Nat.eqb (List.length l) c) m = true.
Proof. intros [_ H]. apply forallb_forall. rewrite Forall_forall in H. intros l Hl. apply Nat.eqb_eq. auto. Qed.
Lemma det_fuel_form fuel : forall n m, n < fuel -> 0 < n -> shape m n n ->
  det_fuel fuel m = Ok (Scalar (laplace n (ent m))).
Proof.
  induction fuel as [|fuel IH]; intros n m Hf Hn Hm; [lia|]. cbn [det_fuel].
  rewrite (row0_len_shape m n n) by assumption. cbn [bind]. rewrite (forallb_shape m n n) by assumption.
  rewrite (proj1 Hm), Nat.eqb_refl. cbn [negb orb].
  destruct n as [|[|[|n]]]; [lia| | |].
  - cbn [Nat.eqb]. rewrite (idx2_ent m 1 1) by (auto; lia). reflexivity.
  - cbn [Nat.eqb]. rewrite !(idx2_ent m 2 2) by (auto; lia). reflexivity.
  - cbn [Nat.eqb].
    rewrite (foldM_total _ (fun s k => nadd s (nmul (nmul (npowi nm1 (Z.of_nat k)) (ent m 0 k))
        (laplace (S (S n)) (fun i j => ent m (S i) (skip k j)))))); [reflexivity|].
    intros s k Hk. apply in_seq in Hk. rewrite (idx2_ent m (S (S (S n))) (S (S (S n)))) by (auto; lia). cbn [bind].
    rewrite (IH (S (S n)) (minor k m)) by (try lia; apply minor_shape; auto; lia). cbn [bind get_scalar unwrap].
    do 3 f_equal. apply laplace_ext. intros i j Hi Hj. apply (minor_ent k m (S (S n))); auto; lia.
Qed.
Lemma det_form m n : 0 < n -> shape m n n -> det_m m = Ok (Scalar (laplace n (ent m))).
Proof. intros Hn Hm. unfold det_m. rewrite (proj1 Hm). apply det_fuel_form; auto. Qed.
Lemma det_nonsquare m r c : 0 < r -> shape m r c -> r <> c -> det_m m = Err "Can't calculate determinant of a non-square matrix!".
Proof.
  intros Hr Hm H. unfold det_m. cbn [det_fuel]. rewrite (row0_len_shape m r c) by assumption. cbn [bind].
  rewrite (proj1 Hm). apply Nat.eqb_neq in H. rewrite H. cbn [negb]. now rewrite orb_true_r.
Qed.

(** ** Elimination *)
(** Row [j] minus the multiple of row [i] that cancels column [i]. *)
Definition step_ent m (i j r k : nat) : T :=
  if (Nat.eqb r j && Nat.leb i k)%bool then nsub (ent m j k) (ndiv (ent m i k) (ndiv (ent m i i) (ent m j i)))
  else ent m r k.
Definition step (n c i j : nat) m : list (list T) := tab2 n c (step_ent m i j).
(** The new row [j] is zero from column [i] on. *)
Definition zero_line (c i j : nat) m : bool :=
  forallb (fun k => neqb (step_ent m i j j k) n0) (seq i (c - i)).

Lemma set_nth_length {A} (l : list A) j x : List.length (set_nth l j x) = List.length l.
Proof. revert j; induction l as [|y l IH]; intros [|j]; cbn; auto. Qed.
Lemma set_nth_nth {A} (l : list A) j x r d : j < List.length l -> nth r (set_nth l j x) d = if Nat.eqb r j then x else nth r l d.
Proof.
  revert j r; induction l as [|y l IH]; intros j r H; [cbn in H; lia|]. destruct j as [|j], r as [|r]; cbn; try reflexivity.
  apply IH. cbn in H; lia.
Qed.
Lemma set_nth_in {A} (l : list A) j x y : In y (set_nth l j x) -> y = x \/ In y l.
Proof.
  revert j; induction l as [|z l IH]; intros [|j]; cbn; auto.
  - intros [->|H]; auto.
  - intros [->|H]; auto. destruct (IH _ H); auto.
Qed.
Lemma mapM_tab_from {E A} (f : nat -> res E A) g s n : (forall i, s <= i < s + n -> f i = Ok (g i)) -> mapM f (seq s n) = Ok (map g (seq s n)).
Proof. intros H. apply mapM_total. intros i Hi. apply in_seq in Hi. apply H. lia. Qed.
Lemma forallb_map_eq {A B} (p : B -> bool) (g : A -> B) l : forallb p (map g l) = forallb (fun x => p (g x)) l.
Proof. induction l as [|x l IH]; cbn; congruence. Qed.
Lemma elim_row_form {E} m n c i j : shape m n c -> i < n -> j < n -> i < c ->
  @elim_row _ E i (nth i m []) (nth j m []) =
  Ok (tab c (step_ent m i j j), zero_line c i j m).
Proof.
  intros Hm Hi Hj Hc. unfold elim_row.
  pose proof (shape_row m n c i Hm Hi) as Li. pose proof (shape_row m n c j Hm Hj) as Lj.
  rewrite !(idx_nth _ i n0) by lia. cbn [bind]. rewrite Lj.
  rewrite (mapM_tab_from _ (step_ent m i j j)).
  - cbn [bind]. do 2 f_equal.
    + apply nth_ext with (d := n0) (d' := n0).
      * rewrite app_length, firstn_length, map_length, seq_length, tab_length. lia.
      * intros k Hk. rewrite app_length, firstn_length, map_length, seq_length in Hk. rewrite tab_nth by lia.
        destruct (Nat.lt_ge_cases k i) as [L|L].
        -- rewrite app_nth1 by (rewrite firstn_length; lia). rewrite nth_firstn by assumption. unfold step_ent.
           destruct (Nat.leb_spec i k); [lia|]. now rewrite andb_false_r.
        -- rewrite app_nth2 by (rewrite firstn_length; lia). rewrite firstn_length.
           rewrite (nth_indep _ n0 (step_ent m i j j 0)) by (rewrite map_length, seq_length; lia).
           rewrite map_nth, seq_nth by lia. f_equal. lia.
    + unfold zero_line. rewrite forallb_map_eq. reflexivity.
  - intros k Hk. rewrite !(idx_nth _ k n0) by lia. cbn [bind]. unfold step_ent. rewrite Nat.eqb_refl.
    destruct (Nat.leb_spec i k); [reflexivity|lia].
Qed.
Lemma elim_step_form {E} (zl : E) m n c i j : shape m n c -> i < n -> j < n -> i < c ->
  (do vi <- idx m i; do vj <- idx m j; do rz <- elim_row i vi vj;
   if snd rz then Err zl else Ok (set_nth m j (fst rz))) =
  if zero_line c i j m then Err zl else Ok (step n c i j m).
Proof.
  intros Hm Hi Hj Hc. rewrite !(idx_row m n c) by assumption. cbn [bind]. rewrite (elim_row_form m n c) by assumption.
  cbn [bind snd fst]. destruct (zero_line c i j m); [reflexivity|]. f_equal.
  assert (Hs : shape (set_nth m j (tab c (step_ent m i j j))) n c).
  { split; [rewrite set_nth_length; apply Hm|]. apply Forall_forall. intros l Hl. apply set_nth_in in Hl as [->|Hl]; [apply tab_length|].
    destruct Hm as [_ H]. rewrite Forall_forall in H. auto. }
  apply (shape_ext _ _ n c Hs); [apply tab2_shape|]. intros r k Hr Hk. unfold step. rewrite ent_tab2 by assumption.
  unfold ent at 1. rewrite set_nth_nth by (rewrite (proj1 Hm); assumption). destruct (Nat.eqb_spec r j) as [->|Hne].
  - now rewrite tab_nth.
  - unfold step_ent. apply Nat.eqb_neq in Hne. now rewrite Hne.
Qed.
Lemma foldM_inv_ext {E A S} (P : S -> Prop) (f g : S -> A -> res E S) l : forall s,
  P s -> (forall s x, P s -> In x l -> f s x = g s x) -> (forall s x s', P s -> In x l -> g s x = Ok s' -> P s') ->
  foldM f l s = foldM g l s.
Proof.
  induction l as [|x l IH]; intros s Hs H1 H2; [reflexivity|]. cbn [foldM]. rewrite (H1 s x) by (auto; now left).
  destruct (g s x) as [s'| | |] eqn:E1; cbn [bind]; auto. apply IH; [apply (H2 s x); auto; now left|..].
  - intros; apply H1; auto; now right.
  - intros s1 x1 s1' ? ? ?. apply (H2 s1 x1); auto. now right.
Qed.
Lemma foldM_inv {E A S} (P : S -> Prop) (f : S -> A -> res E S) l : forall s s',
  P s -> (forall s x s', P s -> In x l -> f s x = Ok s' -> P s') -> foldM f l s = Ok s' -> P s'.
Proof.
  induction l as [|x l IH]; intros s s' Hs H; cbn [foldM]; [now intros [= <-]|].
  destruct (f s x) as [s1| | |] eqn:E1; cbn [bind]; try discriminate. apply IH; [apply (H s x); auto; now left|].
  intros s2 x2 s2' ? ? ?. apply (H s2 x2); auto. now right.
Qed.
(** Elimination of column [i] below the diagonal, and all of it. *)
Definition elim_col {E} (zl : E) (n c i : nat) m : res E (list (list T)) :=
  foldM (fun m j => if zero_line c i j m then Err zl else Ok (step n c i j m)) (seq (S i) (n - S i)) m.
Definition elim {E} (zl : E) (n c : nat) m : res E (list (list T)) :=
  foldM (fun m i => elim_col zl n c i m) (seq 0 (n - 1)) m.
Lemma elim_col_shape {E} (zl : E) n c i m m' : shape m n c -> elim_col zl n c i m = Ok m' -> shape m' n c.
Proof.
  intros Hm. apply (foldM_inv (fun m => shape m n c)); [exact Hm|]. intros s x s' _ _ H. destruct (zero_line c i x s); [discriminate|].
  injection H as <-. apply tab2_shape.
Qed.
Lemma elim_shape {E} (zl : E) n c m m' : shape m n c -> elim zl n c m = Ok m' -> shape m' n c.
Proof. intros Hm. apply (foldM_inv (fun m => shape m n c)); [exact Hm|]. intros s x s' Hs _. now apply elim_col_shape. Qed.
Lemma eliminate_form {E} (zl : E) m n c : shape m n c -> n <= c -> eliminate zl m = elim zl n c m.
Proof.
  intros Hm Hc. unfold eliminate, elim. cbv zeta. rewrite (proj1 Hm).
  apply (foldM_inv_ext (fun m => shape m n c)); [exact Hm| |intros s x s' Hs _; now apply elim_col_shape].
  intros s i Hs Hi. apply in_seq in Hi. unfold elim_col.
  apply (foldM_inv_ext (fun m => shape m n c)); [exact Hs| |].
  - intros s' j Hs' Hj. apply in_seq in Hj. apply elim_step_form; auto; lia.
  - intros s1 j s1' _ _ H. destruct (zero_line c i j s1); [discriminate|]. injection H as <-. apply tab2_shape.
Qed.
Lemma foldM_or {E A S} (e : E) (f : S -> A -> res E S) l : (forall s x, f s x = Err e \/ exists s', f s x = Ok s') ->
  forall s, foldM f l s = Err e \/ exists s', foldM f l s = Ok s'.
Proof.
  intros H. induction l as [|x l IH]; intros s; cbn [foldM]; [right; eauto|].
  destruct (H s x) as [->|(s' & ->)]; cbn [bind]; auto.
Qed.
Lemma elim_total {E} (zl : E) n c m : elim zl n c m = Err zl \/ exists m', elim zl n c m = Ok m'.
Proof.
  apply foldM_or. intros s i. apply foldM_or. intros s' j. destruct (zero_line c i j s'); [now left|right; eauto].
Qed.

(** Reversing rows and columns, then rotating each row by [k]. *)
Lemma flip_shape {A} k (m : list (list A)) n c : k <= c -> shape m n c -> shape (flip k m) n c.
Proof.
  intros Hk [H1 H2]. split; [unfold flip; now rewrite map_length, rev_length|].
  apply Forall_forall. intros l Hl. unfold flip in Hl. apply in_map_iff in Hl as (r & <- & Hr). apply in_rev in Hr.
  rewrite Forall_forall in H2. specialize (H2 r Hr). unfold rotate. rewrite app_length, skipn_length, firstn_length, rev_length. lia.
Qed.
Lemma flip_ent k m n c i j : k <= c -> shape m n c -> i < n -> j < c ->
  ent (flip k m) i j = ent m (n - 1 - i) (if Nat.ltb j (c - k) then c - 1 - (k + j) else c - 1 - (j - (c - k))).
Proof.
  intros Hk Hm Hi Hj. unfold flip, ent.
  rewrite (nth_indep _ [] (rotate k (rev []))) by (rewrite map_length, rev_length, (proj1 Hm); lia).
  rewrite (map_nth (fun r => rotate k (rev r))). rewrite rev_nth by (rewrite (proj1 Hm); lia). rewrite (proj1 Hm).
  replace (n - S i) with (n - 1 - i) by lia. set (r := nth (n - 1 - i) m []).
  assert (Hr : List.length r = c) by (apply (shape_row m n c); auto; lia).
  unfold rotate. destruct (Nat.ltb_spec j (c - k)) as [L|L].
  - rewrite app_nth1 by (rewrite skipn_length, rev_length; lia). rewrite nth_skipn, rev_nth by lia. f_equal. lia.
  - rewrite app_nth2 by (rewrite skipn_length, rev_length; lia). rewrite skipn_length, rev_length, nth_firstn by lia.
    rewrite rev_nth by lia. f_equal. lia.
Qed.

(** ** inv *)
Definition augmented (n : nat) m : list (list T) :=
  map (fun ir => snd ir ++ map (fun j => if Nat.eqb j (fst ir) then n1 else n0) (seq 0 n)) (combine (seq 0 n) m).
Lemma augmented_shape n m : shape m n n -> shape (augmented n m) n (n + n).
Proof.
  intros [H1 H2]. split; [unfold augmented; rewrite map_length, combine_length, seq_length; lia|].
  apply Forall_forall. intros l Hl. unfold augmented in Hl. apply in_map_iff in Hl as ([i r] & <- & Hr). cbn [fst snd].
  rewrite app_length, map_length, seq_length. apply in_combine_r in Hr. rewrite Forall_forall in H2. now rewrite (H2 r Hr).
Qed.
Lemma augmented_ent n m i j : shape m n n -> i < n -> j < n + n ->
  ent (augmented n m) i j = if Nat.ltb j n then ent m i j else if Nat.eqb (j - n) i then n1 else n0.
Proof.
  intros Hm Hi Hj. unfold ent, augmented.
  set (F := fun ir : nat * list T => snd ir ++ map (fun j => if Nat.eqb j (fst ir) then n1 else n0) (seq 0 n)).
  rewrite (nth_indep _ [] (F (0, []))) by (rewrite map_length, combine_length, seq_length, (proj1 Hm); lia).
  rewrite map_nth, combine_nth by (now rewrite seq_length, (proj1 Hm)). rewrite seq_nth by assumption. unfold F. cbn [fst snd Nat.add].
  pose proof (shape_row m n n i Hm Hi) as Lr. destruct (Nat.ltb_spec j n) as [L|L].
  - now rewrite app_nth1 by lia.
  - rewrite app_nth2 by lia. rewrite Lr. change (map ?f (seq 0 n)) with (tab n f). now rewrite tab_nth by lia.
Qed.
Lemma map_seq_shift {A} (f : nat -> A) s k : map f (seq s k) = tab k (fun j => f (s + j)).
Proof.
  unfold tab. revert s; induction k as [|k IH]; intros s; [reflexivity|]. cbn [seq map]. f_equal; [f_equal; lia|].
  rewrite IH, <- seq_shift, map_map. apply map_ext. intros j. f_equal. lia.
Qed.
Lemma inv_form m n : 0 < n -> shape m n n ->
  inv_m m =
  (if neqb (laplace n (ent m)) n0 then Err "Can't calculate inverse of a matrix with determinant 0!"
   else do v <- elim "Infinite solutions" n (n + n) (augmented n m);
        do w <- elim "Infinite solutions" n (n + n) (flip n v);
        Ok (Matrix (tab2 n n (fun i j => nmul (ent w (n - 1 - i) (n + (n - 1 - j))) (ndiv n1 (ent w (n - 1 - i) (n - 1 - i))))))).
Proof.
  intros Hn Hm. unfold inv_m. rewrite (det_form m n) by assumption.
  destruct (neqb (laplace n (ent m)) n0); [reflexivity|]. rewrite (proj1 Hm). cbv zeta.
  change (map _ (combine (seq 0 n) m)) with (augmented n m).
  pose proof (augmented_shape n m Hm) as Ha. rewrite (eliminate_form _ _ n (n + n)) by (auto; lia).
  destruct (elim _ n (n + n) (augmented n m)) as [v| | |] eqn:E1; cbn [bind]; auto.
  apply elim_shape in E1; [|exact Ha]. assert (Hf : shape (flip n v) n (n + n)) by (apply flip_shape; auto; lia).
  rewrite (eliminate_form _ _ n (n + n)) by (auto; lia).
  destruct (elim _ n (n + n) (flip n v)) as [w| | |] eqn:E2; cbn [bind]; auto.
  apply elim_shape in E2; [|exact Hf]. rewrite (proj1 E2).
  rewrite (mapM_tab _ (fun i => rev (tab n (fun j => nmul (ent w i (n + j)) (ndiv n1 (ent w i i)))))).
  - cbn [bind]. do 2 f_equal.
    assert (R : forall {A} k (f : nat -> A), rev (tab k f) = tab k (fun i => f (k - 1 - i))).
    { intros A k f. destruct k as [|k]; [reflexivity|]. apply nth_ext with (d := f 0) (d' := f 0); rewrite rev_length, !tab_length; [reflexivity|].
      intros i Hi. rewrite rev_nth by now rewrite tab_length. rewrite tab_length, !tab_nth by lia. f_equal. lia. }
    rewrite R. apply tab_ext. intros i Hi. rewrite R. apply tab_ext. intros j Hj. reflexivity.
  - intros i Hi. rewrite (idx_row w n (n + n)) by assumption. cbn [bind].
    pose proof (shape_row w n (n + n) i E2 Hi) as Lr. rewrite (idx_nth _ i n0) by lia. cbn [bind]. rewrite Lr.
    replace (n + n - n) with n by lia.
    rewrite (mapM_tab_from _ (fun j => nmul (ent w i j) (ndiv n1 (ent w i i)))).
    + cbn [bind]. do 2 f_equal. apply map_seq_shift.
    + intros j Hj. rewrite (idx_nth _ j n0) by lia. reflexivity.
Qed.
Lemma inv_nonsquare m r c : 0 < r -> shape m r c -> r <> c -> inv_m m = Err "Can't calculate inverse of a non-square matrix!".
Proof. intros Hr Hm H. unfold inv_m. now rewrite (det_nonsquare m r c). Qed.

(** ** Powers *)
Definition mat_mul (n : nat) (a b : nat -> nat -> T) (i j : nat) : T := nsum n (fun k => nmul (a i k) (b k j)).
(** The identity multiplied [p] times by [a] from the right. *)
Fixpoint mat_pow (n : nat) (a : nat -> nat -> T) (p : nat) : nat -> nat -> T :=
  match p with
  | 0 => fun i j => if Nat.eqb i j then n1 else n0
  | S p => mat_mul n (mat_pow n a p) a
  end.
End Forms.

Section PowForm.
Context {N : Num}.
Implicit Types a b m : list (list (@T N)).
Lemma identity_form {E} a r c : 0 < r -> shape a r c ->
  mapM (fun i => do ca <- @row0_len E _ a; Ok (map (fun j => if Nat.eqb i j then n1 else n0) (seq 0 ca))) (seq 0 (List.length a))
  = Ok (tab2 r c (fun i j => if Nat.eqb i j then n1 else n0 : T)).
Proof.
  intros Hr Ha. rewrite (row0_len_shape a r c) by assumption. cbn [bind]. rewrite (proj1 Ha). now apply mapM_tab.
Qed.
Lemma iterM_nat {E A} (f : A -> res E A) p x :
  iterM (Z.of_nat p) f x = Nat.iter p (fun r => bind r f) (Ok x).
Proof.
  unfold iterM. destruct p as [|p]; [reflexivity|]. cbn [Z.of_nat]. rewrite Pos2Nat.inj_iter.
  now rewrite SuccNat2Pos.id_succ.
Qed.
Lemma tab2_mat_pow_shape n a p : shape (tab2 n n (mat_pow n (ent a) p)) n n.
Proof. apply tab2_shape. Qed.
Lemma mspow_step a n : 0 < n -> shape a n n -> forall p,
  Nat.iter p (fun r => bind r (fun m => do q <- mmmult m a; @unwrap string _ (get_matrix q)))
    (Ok (tab2 n n (mat_pow n (ent a) 0))) = Ok (tab2 n n (mat_pow n (ent a) p)).
Proof.
  intros Hn Ha. induction p as [|p IH]; [reflexivity|].
  change (Nat.iter (S p) ?f ?x) with (f (Nat.iter p f x)). cbv beta. rewrite IH. cbn [bind].
  rewrite (mmmult_form _ _ n n n) by (auto using tab2_shape). cbn [bind get_matrix unwrap]. f_equal. apply tab2_ext.
  intros i j Hi Hj. cbn [mat_pow]. unfold mat_mul. apply nsum_ext. intros k Hk. now rewrite ent_tab2.
Qed.
Lemma mspow_form a n (b : T) : 0 < n -> shape a n n -> neqb (nround b) b = true ->
  mspow a b = Ok (Matrix (tab2 n n (mat_pow n (ent a) (Z.to_nat (nto_i32 b))))).
Proof.
  intros Hn Ha Hb. unfold mspow. rewrite Hb. cbn [negb]. rewrite (identity_form a n n) by assumption. cbn [bind].
  destruct (Z.le_gt_cases 0 (nto_i32 b)) as [L|L].
  - rewrite <- (Z2Nat.id (nto_i32 b)) at 1 by assumption. rewrite iterM_nat.
    change (fun i j => if Nat.eqb i j then n1 else n0) with (mat_pow n (ent a) 0).
    rewrite mspow_step by assumption. reflexivity.
  - destruct (nto_i32 b); try lia. reflexivity.
Qed.
Lemma mspow_nonint a (b : T) : neqb (nround b) b = false -> mspow a b = Err "Exponent must be an integer!".
Proof. intros H. unfold mspow. now rewrite H. Qed.
Lemma mmmult_err a b r c r' c' : 0 < r -> 0 < r' -> shape a r c -> shape b r' c' -> c <> r' ->
  mmmult a b = Err "Matrices have incompatible dimensions!".
Proof.
  intros Hr Hr' Ha Hb H. unfold mmmult. rewrite (row0_len_shape a r c) by assumption. cbn [bind]. rewrite (proj1 Hb).
  apply Nat.eqb_neq in H. now rewrite H.
Qed.
Lemma mspow_nonsquare a r c (b : T) : 0 < r -> shape a r c -> r <> c -> neqb (nround b) b = true ->
  mspow a b = if Z.ltb 0 (nto_i32 b) then Err "Matrices have incompatible dimensions!"
              else Ok (Matrix (tab2 r c (fun i j => if Nat.eqb i j then n1 else n0))).
Proof.
  intros Hr Ha Hn Hb. unfold mspow. rewrite Hb. cbn [negb]. rewrite (identity_form a r c) by assumption. cbn [bind].
  destruct (Z.ltb_spec 0 (nto_i32 b)) as [L|L].
  - rewrite <- (Z2Nat.id (nto_i32 b)) by lia. rewrite iterM_nat.
    destruct (Z.to_nat (nto_i32 b)) as [|p] eqn:Ep; [lia|]. clear Ep L.
    enough (Nat.iter (S p) (fun r0 => bind r0 (fun m => do q <- mmmult m a; unwrap (get_matrix q)))
        (Ok (tab2 r c (fun i j => if Nat.eqb i j then n1 else n0))) = Err "Matrices have incompatible dimensions!") as -> by reflexivity.
    induction p as [|p IH].
    + change (Nat.iter 1 ?f ?x) with (f x). cbv beta. cbn [bind]. rewrite (mmmult_err _ a r c r c); auto using tab2_shape.
    + change (Nat.iter (S (S p)) ?f ?x) with (f (Nat.iter (S p) f x)). cbv beta. rewrite IH. reflexivity.
  - destruct (nto_i32 b); try lia; reflexivity.
Qed.
End PowForm.
