(** * PropLaws: C82 - the laws of algebra that hold bit for bit although
    every operation rounds. *)
From Coq Require Import List NArith ZArith Bool String Arith Lia SpecFloat Permutation Reals.
From Flocq Require Import Core.Raux Core.Zaux.
From Verif Require Import Base BaseFacts F64 Num Types Maths Helpers Parser Eval EvalFuel SpecEval EvalProofs PropEval GrammarSpec ParserSpec ShapeSpec
  MathsForms FloatFacts FloatLaws FloatSqrt PropFloat.
Import ListNotations.
Local Open Scope list_scope.

Lemma flat_map_swap {A B C} (g : A -> B -> C) la lb :
  Permutation (flat_map (fun x => map (g x) lb) la) (flat_map (fun y => map (fun x => g x y) la) lb).
Proof.
  revert lb. induction la as [|x la IH]; intros lb; cbn.
  - induction lb; [constructor|assumption].
  - rewrite IH. clear IH. induction lb as [|y lb IH]; cbn; [constructor|]. apply perm_skip. rewrite <- IH, !app_assoc.
    apply Permutation_app_tail, Permutation_app_comm.
Qed.

Lemma flat_map_ext_in {A B} (f g : A -> list B) l : (forall t, In t l -> f t = g t) -> flat_map f l = flat_map g l.
Proof. intros H. rewrite !flat_map_concat_map. f_equal. now apply map_ext_in. Qed.

Section Laws.
Variable lm : Libm.
Local Instance NF : Num := F64 lm.
Context {En : Env}.
Notation V := (Value NF).
Implicit Types (a b : AST NF) (c : Ctx NF) (x y z : V).

(** ** Vocabulary *)
(** The values of [a] are well-formed and made of doubles: true of everything
    in a session ([c65_results_are_doubles]). *)
Definition doubles a c : Prop := forall vs, outcome a c (Ok vs) -> Forall (fun v => well_formed v /\ floats lm v) vs.
(** [-b], whatever the parser puts on the left of the sign. *)
Definition minus b : AST NF := AOp ONeg (AScalar (n0 : @T NF)) b.
Definition number (z : Z) : AST NF := AScalar (nof_Z z : @T NF).
(** [a] and [b] have the same values. *)
Definition same_values a b c : Prop := forall vs, outcome a c (Ok vs) <-> outcome b c (Ok vs).
(** ... in some order. *)
Definition same_values_reordered a b c : Prop :=
  (forall vs, outcome a c (Ok vs) -> exists ws, outcome b c (Ok ws) /\ Permutation vs ws) /\
  (forall vs, outcome b c (Ok vs) -> exists ws, outcome a c (Ok ws) /\ Permutation vs ws).
Definition is_matrix x : Prop := match x with Matrix _ => True | _ => False end.
Definition is_scalar x : Prop := match x with Scalar _ => True | _ => False end.
(** Up to the sign of zeros. *)
Definition same_value x y : Prop :=
  match x, y with
  | Scalar a, Scalar b => same_number a b
  | Vector a, Vector b => Forall2 same_number a b
  | Matrix a, Matrix b => Forall2 (Forall2 same_number) a b
  | _, _ => False
  end.

(** ** Inversion *)
Lemma op_ok_inv op a b c vs : outcome (AOp op a b) c (Ok vs) ->
  exists lv rv, outcome a c (Ok lv) /\ outcome b c (Ok rv) /\ grid op lv rv = Ok vs.
Proof.
  intros (_ & f0 & H). specialize (H (S f0) ltac:(lia)). unfold eval in H. cbn [eval_rec] in H.
  apply bind_ok in H as (lv & Ha & H). apply bind_ok in H as (rv & Hb & H). exists lv, rv.
  assert (L : forall e ws, eval_rec f0 e c [] = Ok ws -> outcome e c (Ok ws)).
  { intros e ws E. split; [discriminate|]. exists f0. intros f Hf. unfold eval. destruct (eval_rec_mono f0 f e c [] Hf) as [G|G]; congruence. }
  split; [now apply L|]. split; [now apply L|]. exact H.
Qed.
Lemma op_ok op a b c lv rv vs : outcome a c (Ok lv) -> outcome b c (Ok rv) -> grid op lv rv = Ok vs -> outcome (AOp op a b) c (Ok vs).
Proof. intros Ha Hb H. rewrite <- H. apply (op_outcome_grid []); auto. rewrite H. discriminate. Qed.
Lemma scalar_ok (x : @T NF) c : outcome (AScalar x) c (Ok [Scalar x]).
Proof. exact (scalar_outcome [] c x). Qed.
Lemma ok_unique a c vs ws : outcome a c (Ok vs) -> outcome a c (Ok ws) -> vs = ws.
Proof. intros (_ & f1 & H1) (_ & f2 & H2). specialize (H1 (f1 + f2) ltac:(lia)). specialize (H2 (f1 + f2) ltac:(lia)). congruence. Qed.
(** One result per pair. *)
Lemma grid_map op (g : V -> V -> V) lv rv : (forall x y, In x lv -> In y rv -> op_meaning op x y = Ok [g x y]) ->
  grid op lv rv = Ok (flat_map (fun x => map (g x) rv) lv).
Proof.
  intros H. unfold grid. apply concatM_ok_iff. exists (map (fun x => map (g x) rv) lv). split; [|now rewrite flat_map_concat_map].
  apply mapM_ok_iff. induction lv as [|x lv IH]; constructor; [|apply IH; intros; apply H; cbn; auto].
  apply row_ok. exists (map (fun y => [g x y]) rv). split.
  - assert (Hx : forall y, In y rv -> op_meaning op x y = Ok [g x y]) by (intros; apply H; cbn; auto). clear -Hx.
    induction rv; constructor; [apply Hx; cbn; auto|apply IHrv; intros; apply Hx; cbn; auto].
  - clear. induction rv; cbn; [reflexivity|now f_equal].
Qed.
Lemma grid_pairs op lv rv vs : grid op lv rv = Ok vs -> forall x y, In x lv -> In y rv -> exists ws, op_meaning op x y = Ok ws.
Proof.
  intros H x y Hx Hy. apply grid_table in H as [_ H]. apply In_nth_error in Hx as (i & Hi). apply In_nth_error in Hy as (j & Hj).
  destruct (H i j x y Hi Hj) as (ws & E & _). eauto.
Qed.
Lemma single_ok (r : res string V) ws : single r = Ok ws -> exists z, r = Ok z /\ ws = [z].
Proof. destruct r; try discriminate. intros E. injection E as <-. eauto. Qed.
Definition pick (r : res string V) (d : V) : V := match r with Ok v => v | _ => d end.
(** Operations given by a function of two values. *)
Lemma grid_fun op (f : V -> V -> res string V) lv rv vs : (forall x y, op_meaning op x y = single (f x y)) -> grid op lv rv = Ok vs ->
  (forall x y, In x lv -> In y rv -> f x y = Ok (pick (f x y) x)) /\ vs = flat_map (fun x => map (fun y => pick (f x y) x) rv) lv.
Proof.
  intros Hf H. assert (G : forall x y, In x lv -> In y rv -> f x y = Ok (pick (f x y) x)).
  { intros x y Hx Hy. destruct (grid_pairs _ _ _ _ H x y Hx Hy) as (ws & E). rewrite Hf in E. apply single_ok in E as (z & -> & _). reflexivity. }
  split; [exact G|]. rewrite (grid_map op (fun x y => pick (f x y) x)) in H; [now injection H|].
  intros x y Hx Hy. rewrite Hf, (G x y Hx Hy) at 1. reflexivity.
Qed.
Lemma grid_fun_ok op (f : V -> V -> res string V) (g : V -> V -> V) lv rv : (forall x y, op_meaning op x y = single (f x y)) ->
  (forall x y, In x lv -> In y rv -> f x y = Ok (g x y)) -> grid op lv rv = Ok (flat_map (fun x => map (g x) rv) lv).
Proof. intros Hf H. apply grid_map. intros x y Hx Hy. now rewrite Hf, H. Qed.

(** A commutative operation. *)
Lemma commutes op (f : V -> V -> res string V) a b c : (forall x y, op_meaning op x y = single (f x y)) ->
  (forall lv rv, outcome a c (Ok lv) -> outcome b c (Ok rv) -> forall x y, In x lv -> In y rv -> forall z, f x y = Ok z <-> f y x = Ok z) ->
  same_values_reordered (AOp op a b) (AOp op b a) c.
Proof.
  intros Hf H. assert (G : forall a b, (forall lv rv, outcome a c (Ok lv) -> outcome b c (Ok rv) -> forall x y, In x lv -> In y rv -> forall z, f x y = Ok z <-> f y x = Ok z) ->
    forall vs, outcome (AOp op a b) c (Ok vs) -> exists ws, outcome (AOp op b a) c (Ok ws) /\ Permutation vs ws).
  { clear a b H. intros a b H vs Ho. apply op_ok_inv in Ho as (lv & rv & Ha & Hb & E). specialize (H lv rv Ha Hb).
    destruct (grid_fun op f lv rv vs Hf E) as [E1 E2].
    exists (flat_map (fun y => map (fun x => pick (f x y) x) lv) rv). split.
    - apply (op_ok op b a c rv lv); auto. apply (grid_fun_ok op f (fun y x => pick (f x y) x)); [exact Hf|].
      intros y x Hy Hx. apply (H x y Hx Hy). now apply E1.
    - rewrite E2. apply (flat_map_swap (fun x y => pick (f x y) x)). }
  split; apply G; [exact H|]. intros lv rv Hb Ha x y Hx Hy z. symmetry. now apply (H rv lv).
Qed.

(** ** C82 *)
(** [a+b] and [b+a] have the same values, in the same order if one of the two
    has a single value. *)
Theorem c82_addition_commutes a b c : doubles a c -> doubles b c -> same_values_reordered (AOp OAdd a b) (AOp OAdd b a) c.
Proof.
  intros Ha Hb. apply (commutes OAdd add); [reflexivity|]. intros lv rv Oa Ob x y Hx Hy z.
  specialize (Ha lv Oa). specialize (Hb rv Ob). rewrite Forall_forall in Ha, Hb. destruct (Ha x Hx) as [(k & Kx) _], (Hb y Hy) as [(k' & Ky) _].
  apply (c21_addition_commutes lm x y k k' Kx Ky).
Qed.
Lemma mult_comm x y : well_formed x -> well_formed y -> (is_matrix x -> is_scalar y) -> (is_matrix y -> is_scalar x) -> forall z, mult x y = Ok z <-> mult y x = Ok z.
Proof.
  intros (k & Kx) (k' & Ky) H1 H2 z. destruct x as [ma|u|u], y as [mb|v|v]; cbn in H1, H2; try tauto.
  - change (mult (Vector u) (Vector v)) with (vvmult u v). change (mult (Vector v) (Vector u)) with (vvmult v u).
    destruct (Nat.eq_dec (List.length u) (List.length v)) as [E|E].
    + rewrite (vvmult_form u v), (vvmult_form v u) by congruence. rewrite <- E.
      rewrite (nsum_ext (List.length u) (fun k => nmul (com u k) (com v k)) (fun k => nmul (com v k) (com u k))); [reflexivity|].
      intros j _. apply fmul_comm.
    + unfold vvmult. apply Nat.eqb_neq in E as E1. assert (E2 : (List.length v =? List.length u)%nat = false) by (rewrite Nat.eqb_sym; exact E1). rewrite E1, E2. split; discriminate.
  - change (mult (Scalar u) (Scalar v)) with (@Ok string V (Scalar (fmul u v))). change (mult (Scalar v) (Scalar u)) with (@Ok string V (Scalar (fmul v u))). now rewrite (fmul_comm u v).
Qed.
(** [a*b] and [b*a] have the same values, for numbers and vectors, and for
    matrices with numbers. *)
Theorem c82_multiplication_commutes op a b c : op = OMult \/ op = OHiddenMult -> doubles a c -> doubles b c ->
  (forall lv rv, outcome a c (Ok lv) -> outcome b c (Ok rv) -> forall x y, In x lv -> In y rv -> (is_matrix x -> is_scalar y) /\ (is_matrix y -> is_scalar x)) ->
  same_values_reordered (AOp op a b) (AOp op b a) c.
Proof.
  intros Hop Ha Hb Hm. apply (commutes op mult); [destruct Hop as [-> | ->]; reflexivity|]. intros lv rv Oa Ob x y Hx Hy z.
  destruct (Hm lv rv Oa Ob x y Hx Hy). specialize (Ha lv Oa). specialize (Hb rv Ob). rewrite Forall_forall in Ha, Hb.
  apply mult_comm; auto; [now apply Ha|now apply Hb].
Qed.

(** Every component. *)
Definition vmap (g : f64 -> f64) x : V :=
  match x with Scalar s => Scalar (g s) | Vector l => Vector (map g l) | Matrix m => Matrix (map (map g) m) end.
Lemma vmap_ext (P : f64 -> Prop) g h x : (forall s, P s -> g s = h s) -> all_components (N := NF) P x -> vmap g x = vmap h x.
Proof.
  intros H. destruct x as [m|l|s]; cbn; intros Hp; f_equal.
  - apply map_ext_in. intros r Hr. apply map_ext_in. intros s Hs. apply H. rewrite Forall_forall in Hp. specialize (Hp r Hr). rewrite Forall_forall in Hp. auto.
  - apply map_ext_in. intros s Hs. apply H. rewrite Forall_forall in Hp. auto.
  - auto.
Qed.
Lemma vmap_id g x : (forall s, fvalid s = true -> g s = s) -> floats lm x -> vmap g x = x.
Proof.
  intros H Hx. rewrite (vmap_ext _ g (fun s => s) x H Hx). destruct x as [m|l|s]; cbn; [|now rewrite map_id|reflexivity].
  f_equal. rewrite <- (map_id m) at 2. apply map_ext. intros; apply map_id.
Qed.
Lemma vmap_vmap g h x : vmap g (vmap h x) = vmap (fun s => g (h s)) x.
Proof. destruct x as [m|l|s]; cbn; f_equal; rewrite map_map; [|reflexivity]. apply map_ext. intros. apply map_map. Qed.
Lemma vmap_all (P : f64 -> Prop) g x : (forall s, P s -> P (g s)) -> all_components (N := NF) P x -> all_components (N := NF) P (vmap g x).
Proof.
  intros H. destruct x as [m|l|s]; cbn; auto; rewrite !Forall_map; intros Hp; (eapply Forall_impl; [|exact Hp]); cbn; auto.
  intros r Hr. rewrite Forall_map. eapply Forall_impl; [|exact Hr]. auto.
Qed.
Lemma vmap_kind g x k : has_kind x k -> has_kind (vmap g x) k.
Proof.
  destruct x as [m|l|s], k; cbn; try easy; rewrite ?map_length; auto. intros (H1 & H2 & H3 & H4). repeat split; auto; [now rewrite map_length|].
  rewrite Forall_map. eapply Forall_impl; [|exact H4]. cbn. intros. now rewrite map_length.
Qed.
Lemma vmap_good g x : (forall s, fvalid s = true -> fvalid (g s) = true) -> well_formed x /\ floats lm x -> well_formed (vmap g x) /\ floats lm (vmap g x).
Proof. intros H [(k & Hk) Hf]. split; [exists k; now apply vmap_kind|]. now apply vmap_all. Qed.
Lemma matrix_tab (g : f64 -> f64) (m : list (list f64)) (r c : nat) : shape m r c -> tab2 r c (fun i j => g (@ent NF m i j)) = map (map g) m.
Proof.
  intros H. transitivity (map (map g) (tab2 r c (@ent NF m))).
  - unfold tab2. rewrite tab_map. apply tab_ext. intros i _. now rewrite tab_map.
  - now rewrite tab2_id.
Qed.
Lemma neg_vmap x : neg x = Ok (vmap (fun s => fmul fm1 s) x).
Proof. now destruct x. Qed.
Lemma mult_scalar (s : f64) x : well_formed x -> mult (Scalar s) x = Ok (vmap (fun t => fmul t s) x).
Proof.
  intros (k & Hk). destruct x as [m|l|t].
  - destruct k; cbn in Hk; try easy. destruct Hk as (Hr & Hc & Hs). change (@mult NF (@Scalar NF s) (@Matrix NF m)) with (@smmult NF s m).
    rewrite (@smmult_form NF s m r c Hr Hs). cbn. do 2 f_equal. exact (matrix_tab (fun t => fmul t s) m r c Hs).
  - reflexivity.
  - change (@mult NF (@Scalar NF s) (@Scalar NF t)) with (@Ok string V (Scalar (fmul s t))). cbn. now rewrite fmul_comm.
Qed.
Lemma mult_scalar_r (s : f64) x : well_formed x -> mult x (Scalar s) = Ok (vmap (fun t => fmul t s) x).
Proof. intros Hx. rewrite <- (mult_scalar s x Hx). destruct x as [m|l|t]; try reflexivity. change (@Ok string V (@Scalar NF (fmul t s)) = Ok (@Scalar NF (fmul s t))). now rewrite fmul_comm. Qed.
Lemma div_scalar (s : f64) x : well_formed x -> div x (Scalar s) = Ok (match x with Scalar t => Scalar (fdiv t s) | _ => vmap (fun t => fmul t (fdiv f1 s)) x end).
Proof. intros Hx. destruct x as [m|l|t]; [|reflexivity|reflexivity]. change (@div NF (@Matrix NF m) (@Scalar NF s)) with (@mult NF (@Scalar NF (fdiv f1 s)) (@Matrix NF m)). now apply mult_scalar. Qed.

(** A value-wise operation by a number, and by another expression. *)
Lemma grid_left op (f : V -> V -> res string V) (h : V -> V) s rv : (forall x y, op_meaning op x y = single (f x y)) ->
  (forall y, In y rv -> f s y = Ok (h y)) -> grid op [s] rv = Ok (map h rv).
Proof.
  intros Hf H. rewrite (grid_fun_ok op f (fun _ y => h y) [s] rv Hf); [cbn; now rewrite app_nil_r|]. intros x y [<-|[]] Hy. auto.
Qed.
Lemma grid_right op (f : V -> V -> res string V) (h : V -> V) s lv : (forall x y, op_meaning op x y = single (f x y)) ->
  (forall x, In x lv -> f x s = Ok (h x)) -> grid op lv [s] = Ok (map h lv).
Proof.
  intros Hf H. rewrite (grid_fun_ok op f (fun x _ => h x) lv [s] Hf).
  - reflexivity.
  - intros x y Hx [<-|[]]. auto.
Qed.
Lemma minus_ok b c rv : outcome b c (Ok rv) -> outcome (minus b) c (Ok (map (vmap (fun s => fmul fm1 s)) rv)).
Proof.
  intros H. apply (op_ok ONeg _ b c [Scalar (n0 : @T NF)] rv); [apply scalar_ok|exact H|]. apply (grid_left ONeg (fun _ y => neg y)); [reflexivity|].
  intros y _. apply neg_vmap.
Qed.
Lemma minus_inv b c vs : outcome (minus b) c (Ok vs) -> exists rv, outcome b c (Ok rv) /\ vs = map (vmap (fun s => fmul fm1 s)) rv.
Proof.
  intros H. apply op_ok_inv in H as (lv & rv & Ha & Hb & E). exists rv. split; [exact Hb|].
  apply (ok_unique (minus b) c); [|now apply minus_ok]. exact (op_ok ONeg _ b c lv rv vs Ha Hb E).
Qed.

(** [-(-a)] is [a]. *)
Theorem c82_double_minus a c : doubles a c -> same_values (minus (minus a)) a c.
Proof.
  intros Ha. assert (G : forall vs, outcome a c (Ok vs) -> outcome (minus (minus a)) c (Ok vs)).
  { intros vs H. pose proof (minus_ok _ _ _ (minus_ok _ _ _ H)) as G. rewrite map_map in G.
    rewrite (map_ext_in _ (fun x => x)) in G; [now rewrite map_id in G|]. intros x Hx. specialize (Ha vs H). rewrite Forall_forall in Ha.
    destruct (Ha x Hx) as [_ Hf]. rewrite vmap_vmap. apply vmap_id; [|exact Hf]. intros s Hs. rewrite (fm1_mul s Hs), fm1_mul by (now apply fopp_valid). apply fopp_involutive. }
  intros vs. split; [|apply G]. intros H. pose proof H as H0. apply minus_inv in H as (rv & H & _). apply minus_inv in H as (lv & H & _).
  pose proof (G lv H) as G1. now rewrite (ok_unique _ _ _ _ H0 G1).
Qed.

(** [1*a], [a*1] and [a/1] are [a]. *)
Lemma by_one op (f : V -> V -> res string V) (left : bool) a c : (forall x y, op_meaning op x y = single (f x y)) ->
  (forall x, well_formed x -> floats lm x -> (if left then f (Scalar f1) x else f x (Scalar f1)) = Ok x) -> doubles a c ->
  same_values (if left then AOp op (number 1) a else AOp op a (number 1)) a c.
Proof.
  intros Hf H Ha. assert (G : forall vs, outcome a c (Ok vs) -> outcome (if left then AOp op (number 1) a else AOp op a (number 1)) c (Ok vs)).
  { intros vs Ho. specialize (Ha vs Ho). rewrite Forall_forall in Ha. destruct left.
    - apply (op_ok op _ a c [Scalar (f1 : @T NF)] vs); [apply scalar_ok|exact Ho|]. rewrite <- (map_id vs) at 2. apply (grid_left op f); [exact Hf|].
      intros y Hy. destruct (Ha y Hy). now apply H.
    - apply (op_ok op a _ c vs [Scalar (f1 : @T NF)]); [exact Ho|apply scalar_ok|]. rewrite <- (map_id vs) at 2. apply (grid_right op f); [exact Hf|].
      intros y Hy. destruct (Ha y Hy). now apply H. }
  intros vs. split; [|apply G]. intros Ho. assert (E : exists lv, outcome a c (Ok lv)).
  { destruct left; apply op_ok_inv in Ho as (lv & rv & ? & ? & _); eauto. }
  destruct E as (lv & E). now rewrite (ok_unique _ _ _ _ Ho (G lv E)).
Qed.
Theorem c82_one_times op a c : op = OMult \/ op = OHiddenMult -> doubles a c -> same_values (AOp op (number 1) a) a c /\ same_values (AOp op a (number 1)) a c.
Proof.
  intros Hop Ha. split; [apply (by_one op mult true)|apply (by_one op mult false)]; auto; try (destruct Hop as [-> | ->]; reflexivity).
  - intros x Hx Hf. rewrite mult_scalar by assumption. f_equal. apply vmap_id; [|exact Hf]. apply fmul_1_r.
  - intros x Hx Hf. rewrite mult_scalar_r by assumption. f_equal. apply vmap_id; [|exact Hf]. apply fmul_1_r.
Qed.
Theorem c82_over_one a c : doubles a c -> same_values (AOp ODiv a (number 1)) a c.
Proof.
  intros Ha. apply (by_one ODiv div false); auto. intros x Hx Hf. rewrite div_scalar by assumption. f_equal.
  destruct x; [| |cbn in *; now rewrite fdiv_1_r]; (apply vmap_id; [|exact Hf]); apply fmul_1_r.
Qed.

(** [a-b] is [a+(-b)]. *)
Lemma sub_add x y z : well_formed y -> (sub x y = Ok z <-> add x (vmap (fun s => fmul fm1 s) y) = Ok z).
Proof.
  intros (k & Hk). destruct x as [ma|u|u], y as [mb|v|v]; try (split; discriminate).
  - destruct k; cbn in Hk; try easy. destruct Hk as (Hr & Hc & Hs).
    change (@sub NF (@Matrix NF ma) (@Matrix NF mb)) with (@msub NF ma mb). unfold msub.
    rewrite (@mneg_form NF string mb r c (fun t => nmul t nm1) Hr Hs). cbn [bind vmap add].
    rewrite (matrix_tab (fun t => fmul t fm1) mb r c Hs : tab2 r c (fun i j => nmul (@ent NF mb i j) nm1) = _).
    rewrite (map_ext (map (fun t => fmul t fm1)) (map (fun s => fmul fm1 s))); [reflexivity|]. intros l. apply map_ext. intros t. apply fmul_comm.
  - change (@sub NF (@Vector NF u) (@Vector NF v)) with (@vadd NF u (map (fun t => fmul t fm1) v)). cbn [vmap add].
    rewrite (map_ext (fun t => fmul t fm1) (fun s => fmul fm1 s)); [reflexivity|]. intros t. apply fmul_comm.
  - change (@sub NF (@Scalar NF u) (@Scalar NF v)) with (@sadd NF u (fmul v fm1)). cbn [vmap add]. now rewrite (fmul_comm v).
Qed.
Theorem c82_minus_is_plus_minus a b c : doubles b c -> same_values (AOp OSub a b) (AOp OAdd a (minus b)) c.
Proof.
  intros Hb vs. split; intros H.
  - apply op_ok_inv in H as (lv & rv & Ha & Ho & E). specialize (Hb rv Ho). rewrite Forall_forall in Hb.
    apply (op_ok OAdd a (minus b) c lv _ vs Ha (minus_ok b c rv Ho)).
    destruct (grid_fun OSub sub lv rv vs (fun _ _ => eq_refl) E) as [E1 E2].
    rewrite (grid_fun_ok OAdd add (fun x y => pick (add x y) x)); [|reflexivity|].
    + rewrite E2. f_equal. apply flat_map_ext_in. intros x Hx. rewrite map_map. apply map_ext_in. intros y Hy.
      destruct (Hb y Hy) as [Wy _]. pose proof (proj1 (sub_add x y _ Wy) (E1 x y Hx Hy)) as G. rewrite G. reflexivity.
    + intros x y Hx Hy. apply in_map_iff in Hy as (y' & <- & Hy). destruct (Hb y' Hy) as [Wy _].
      pose proof (proj1 (sub_add x y' _ Wy) (E1 x y' Hx Hy)) as G. now rewrite G.
  - apply op_ok_inv in H as (lv & rv & Ha & Ho & E). apply minus_inv in Ho as (rv' & Ho & ->). specialize (Hb rv' Ho). rewrite Forall_forall in Hb.
    apply (op_ok OSub a b c lv rv' vs Ha Ho).
    destruct (grid_fun OAdd add lv _ vs (fun _ _ => eq_refl) E) as [E1 E2].
    assert (G : forall x y, In x lv -> In y rv' -> sub x y = Ok (pick (add x (vmap (fun s => fmul fm1 s) y)) x)).
    { intros x y Hx Hy. destruct (Hb y Hy) as [Wy _]. apply (sub_add x y _ Wy). apply E1; [exact Hx|now apply in_map]. }
    rewrite (grid_fun_ok OSub sub _ lv rv' (fun _ _ => eq_refl) G). rewrite E2. f_equal. apply flat_map_ext_in. intros x Hx. now rewrite map_map.
Qed.

Lemma add_vmap g v : well_formed v -> add v (vmap g v) = Ok (vmap (fun t => fadd t (g t)) v).
Proof.
  intros (k & Hk). destruct v as [m|l|t].
  - destruct k; cbn in Hk; try easy. destruct Hk as (Hr & Hc & Hs). pose proof (vmap_kind g (@Matrix NF m) (KM r c) (conj Hr (conj Hc Hs))) as (_ & _ & Hs').
    change (@add NF (@Matrix NF m) (vmap g (@Matrix NF m))) with (@madd NF m (map (map g) m)).
    rewrite (@madd_form NF m (map (map g) m) r c) by assumption. cbn [vmap]. do 2 f_equal.
    rewrite <- (matrix_tab (fun t => fadd t (g t)) m r c Hs). apply tab2_ext. intros i j Hi Hj.
    rewrite <- (matrix_tab g m r c Hs). change (fadd (@ent NF m i j) (@ent NF (tab2 r c (fun i j => g (@ent NF m i j))) i j) = fadd (@ent NF m i j) (g (@ent NF m i j))).
    f_equal. exact (@ent_tab2 NF r c (fun i j => g (@ent NF m i j)) i j Hi Hj).
  - change (@add NF (@Vector NF l) (vmap g (@Vector NF l))) with (@vadd NF l (map g l)). rewrite (@vadd_form NF l (map g l)) by (now rewrite map_length). cbn [vmap]. do 2 f_equal.
    transitivity (map (fun t => fadd t (g t)) (tab (List.length l) (fun i => nth i l f0))); [|now rewrite tab_id]. rewrite tab_map. apply tab_ext. intros i Hi. change (fadd (nth i l f0) (nth i (map g l) f0) = fadd (nth i l f0) (g (nth i l f0))).
    f_equal. rewrite (nth_indep _ f0 (g f0)) by (now rewrite map_length). apply map_nth.
  - reflexivity.
Qed.
(** [a+a] is [2*a]. *)
Theorem c82_twice a c v : doubles a c -> outcome a c (Ok [v]) -> same_values (AOp OAdd a a) (AOp OMult (number 2) a) c.
Proof.
  intros Ha H. specialize (Ha _ H). inversion Ha as [|? ? [Wv Fv] _]; subst.
  assert (E : add v v = Ok (vmap (fun t => fmul t f2) v)).
  { rewrite <- (vmap_id (fun t => t) v) at 2 by auto. rewrite add_vmap by exact Wv. f_equal. apply (vmap_ext (fun x : f64 => fvalid x = true)); [|exact Fv].
    intros t Ht. rewrite fmul_comm. now apply fadd_self. }
  assert (G1 : outcome (AOp OAdd a a) c (Ok [vmap (fun t => fmul t f2) v])).
  { apply (op_ok OAdd a a c [v] [v]); auto. apply (grid_left OAdd add (fun y => vmap (fun t => fmul t f2) v)); [reflexivity|]. intros y [<-|[]]. exact E. }
  assert (G2 : outcome (AOp OMult (number 2) a) c (Ok [vmap (fun t => fmul t f2) v])).
  { apply (op_ok OMult (number 2) a c [Scalar (f2 : @T NF)] [v]); [apply scalar_ok|exact H|].
    apply (grid_left OMult mult (vmap (fun t => fmul t f2))); [reflexivity|]. intros y [<-|[]]. now apply mult_scalar. }
  intros vs. split; intros Ho; [now rewrite (ok_unique _ _ _ _ Ho G1)|now rewrite (ok_unique _ _ _ _ Ho G2)].
Qed.

(** [a-a] is zero, for finite values; [a/a] is 1 for finite numbers other than
    zero. *)
Theorem c82_difference_with_itself a c v : doubles a c -> outcome a c (Ok [v]) -> is_inf_or_nan v = false ->
  outcome (AOp OSub a a) c (Ok [vmap (fun _ => f0) v]).
Proof.
  intros Ha H Hi. specialize (Ha _ H). inversion Ha as [|? ? [Wv Fv] _]; subst.
  apply (op_ok OSub a a c [v] [v]); auto. apply (grid_left OSub sub (fun _ => vmap (fun _ => f0) v)); [reflexivity|]. intros y [<-|[]].
  apply (sub_add v v _ Wv). rewrite add_vmap by exact Wv. f_equal.
  apply (vmap_ext (fun t : f64 => fvalid t = true /\ fis_finite t = true)).
  - intros t [V1 F1]. rewrite fm1_mul by exact V1. rewrite <- fsub_fadd_opp. now apply fsub_self.
  - assert (L : forall l : list f64, Forall (fun t => fvalid t = true) l -> existsb (fun t => (fis_inf t || fis_nan t)%bool) l = false -> Forall (fun t => fvalid t = true /\ fis_finite t = true) l).
    { induction l as [|t l IH]; cbn; intros G E; constructor; inversion G; subst; apply orb_false_iff in E as [E1 E2]; auto. split; [assumption|]. now destruct t. }
    destruct v as [m|l|t]; cbn in *.
    + clear -L Fv Hi. induction m as [|l m IH]; cbn in *; constructor; inversion Fv; subst; apply orb_false_iff in Hi as [E1 E2]; auto.
    + now apply L.
    + split; [exact Fv|]. now destruct t.
Qed.
Theorem c82_quotient_by_itself a c (s : f64) : doubles a c -> outcome a c (Ok [@Scalar NF s]) -> fis_finite s = true -> feqb s f0 = false ->
  outcome (AOp ODiv a a) c (Ok [@Scalar NF f1]).
Proof.
  intros Ha H Hf H0. specialize (Ha _ H). inversion Ha as [|? ? [_ Fv] _]; subst. cbn in Fv.
  apply (op_ok ODiv a a c [@Scalar NF s] [@Scalar NF s]); auto. apply (grid_left ODiv div (fun _ => @Scalar NF f1)); [reflexivity|]. intros y [<-|[]].
  change (@Ok string V (@Scalar NF (fdiv s s)) = Ok (@Scalar NF f1)). now rewrite fdiv_self.
Qed.

(** Signs: [(-a)*b] and [a*(-b)] are [-(a*b)], for numbers and for a number
    with a vector or matrix; likewise quotients. *)
Notation vneg := (vmap (fun s => fmul fm1 s)).
Lemma minus_op op (f : V -> V -> res string V) (left : bool) a b c : (forall x y, op_meaning op x y = single (f x y)) ->
  (forall lv rv, outcome a c (Ok lv) -> outcome b c (Ok rv) -> forall x y, In x lv -> In y rv ->
     (forall z, f x y = Ok z -> (if left then f (vneg x) y else f x (vneg y)) = Ok (vneg z)) /\
     (forall z, (if left then f (vneg x) y else f x (vneg y)) = Ok z -> exists w, f x y = Ok w)) ->
  same_values (if left then AOp op (minus a) b else AOp op a (minus b)) (minus (AOp op a b)) c.
Proof.
  intros Hf H.
  assert (G : forall lv rv vs, outcome a c (Ok lv) -> outcome b c (Ok rv) -> grid op lv rv = Ok vs ->
    outcome (if left then AOp op (minus a) b else AOp op a (minus b)) c (Ok (map vneg vs))).
  { intros lv rv vs Ha Hb E. specialize (H lv rv Ha Hb). destruct (grid_fun op f lv rv vs Hf E) as [E1 E2]. destruct left.
    - apply (op_ok op _ b c (map vneg lv) rv); [now apply minus_ok|exact Hb|].
      rewrite (grid_map op (fun x y => pick (f x y) x)).
      + rewrite E2, flat_map_concat_map, map_map, <- flat_map_concat_map. f_equal. rewrite !flat_map_concat_map, concat_map, map_map. f_equal. apply map_ext_in. intros x Hx.
        rewrite map_map. apply map_ext_in. intros y Hy. destruct (H x y Hx Hy) as [H1 _]. rewrite (H1 _ (E1 x y Hx Hy)). reflexivity.
      + intros x y Hx Hy. apply in_map_iff in Hx as (x' & <- & Hx). destruct (H x' y Hx Hy) as [H1 _]. rewrite Hf, (H1 _ (E1 x' y Hx Hy)). reflexivity.
    - apply (op_ok op a _ c lv (map vneg rv)); [exact Ha|now apply minus_ok|].
      rewrite (grid_map op (fun x y => pick (f x y) x)).
      + rewrite E2. f_equal. rewrite !flat_map_concat_map, concat_map, map_map. f_equal. apply map_ext_in. intros x Hx.
        rewrite !map_map. apply map_ext_in. intros y Hy. destruct (H x y Hx Hy) as [H1 _]. rewrite (H1 _ (E1 x y Hx Hy)). reflexivity.
      + intros x y Hx Hy. apply in_map_iff in Hy as (y' & <- & Hy). destruct (H x y' Hx Hy) as [H1 _]. rewrite Hf, (H1 _ (E1 x y' Hx Hy)). reflexivity. }
  intros vs. split; intros Ho.
  - assert (K : exists lv rv ws, outcome a c (Ok lv) /\ outcome b c (Ok rv) /\ grid op lv rv = Ok ws).
    { destruct left; apply op_ok_inv in Ho as (lv & rv & Ha & Hb & E).
      - apply minus_inv in Ha as (lv' & Ha & ->). exists lv', rv, (flat_map (fun x => map (fun y => pick (f x y) x) rv) lv'). split; [exact Ha|]. split; [exact Hb|].
        destruct (grid_fun op f _ rv vs Hf E) as [E1 _]. apply (grid_fun_ok op f (fun x y => pick (f x y) x)); [exact Hf|]. intros x y Hx Hy.
        destruct (H lv' rv Ha Hb x y Hx Hy) as [_ H2]. destruct (H2 _ (E1 _ y (in_map _ _ _ Hx) Hy)) as (w & ->). reflexivity.
      - apply minus_inv in Hb as (rv' & Hb & ->). exists lv, rv', (flat_map (fun x => map (fun y => pick (f x y) x) rv') lv). split; [exact Ha|]. split; [exact Hb|].
        destruct (grid_fun op f lv _ vs Hf E) as [E1 _]. apply (grid_fun_ok op f (fun x y => pick (f x y) x)); [exact Hf|]. intros x y Hx Hy.
        destruct (H lv rv' Ha Hb x y Hx Hy) as [_ H2]. destruct (H2 _ (E1 x _ Hx (in_map _ _ _ Hy))) as (w & ->). reflexivity. }
    destruct K as (lv & rv & ws & Ha & Hb & E). rewrite (ok_unique _ _ _ _ Ho (G lv rv ws Ha Hb E)). apply minus_ok. now apply (op_ok op a b c lv rv).
  - apply minus_inv in Ho as (ws & Ho & ->). apply op_ok_inv in Ho as (lv & rv & Ha & Hb & E). now apply (G lv rv).
Qed.
Lemma vneg_good x : well_formed x -> well_formed (vneg x).
Proof. intros (k & Hk). exists k. now apply vmap_kind. Qed.
Lemma neg_mul_l t s : fvalid t = true -> fvalid s = true -> fmul (fmul fm1 t) s = fmul fm1 (fmul t s).
Proof. intros Ht Hs. rewrite !fm1_mul by auto using fmul_valid. apply fmul_opp_l. Qed.
Lemma neg_mul_r t s : fvalid t = true -> fvalid s = true -> fmul t (fmul fm1 s) = fmul fm1 (fmul t s).
Proof. intros Ht Hs. rewrite !fm1_mul by auto using fmul_valid. apply fmul_opp_r. Qed.
Lemma mult_neg (left : bool) x y : well_formed x -> well_formed y -> floats lm x -> floats lm y -> is_scalar x \/ is_scalar y ->
  (forall z, mult x y = Ok z -> (if left then mult (vneg x) y else mult x (vneg y)) = Ok (vneg z)) /\ (exists w, mult x y = Ok w).
Proof.
  intros Wx Wy Fx Fy H. assert (Hn : forall s : f64, fvalid s = true -> forall t, fvalid t = true -> fmul (fmul fm1 t) s = fmul fm1 (fmul t s)) by (intros; now apply neg_mul_l).
  assert (Hn' : forall s : f64, fvalid s = true -> forall t, fvalid t = true -> fmul t (fmul fm1 s) = fmul fm1 (fmul t s)) by (intros; now apply neg_mul_r).
  destruct H as [H|H].
  - destruct x as [|?|s]; try easy. cbn in Fx. split; [|rewrite mult_scalar by exact Wy; eauto].
    intros z. rewrite mult_scalar by exact Wy. intros E. injection E as <-. rewrite vmap_vmap. destruct left.
    + change (vneg (@Scalar NF s)) with (@Scalar NF (fmul fm1 s)). rewrite mult_scalar by exact Wy. f_equal. apply (vmap_ext (fun t : f64 => fvalid t = true)); [|exact Fy]. apply Hn'. exact Fx.
    + rewrite mult_scalar by now apply vneg_good. rewrite vmap_vmap. f_equal. apply (vmap_ext (fun t : f64 => fvalid t = true)); [|exact Fy]. apply Hn. exact Fx.
  - destruct y as [|?|s]; try easy. cbn in Fy. split; [|rewrite mult_scalar_r by exact Wx; eauto].
    intros z. rewrite mult_scalar_r by exact Wx. intros E. injection E as <-. rewrite vmap_vmap. destruct left.
    + rewrite mult_scalar_r by now apply vneg_good. rewrite vmap_vmap. f_equal. apply (vmap_ext (fun t : f64 => fvalid t = true)); [|exact Fx]. apply Hn. exact Fy.
    + change (vneg (@Scalar NF s)) with (@Scalar NF (fmul fm1 s)). rewrite mult_scalar_r by exact Wx. f_equal. apply (vmap_ext (fun t : f64 => fvalid t = true)); [|exact Fx]. apply Hn'. exact Fy.
Qed.
Lemma div_neg (left : bool) x y : well_formed x -> well_formed y -> floats lm x -> floats lm y -> is_scalar y ->
  (forall z, div x y = Ok z -> (if left then div (vneg x) y else div x (vneg y)) = Ok (vneg z)) /\ (exists w, div x y = Ok w).
Proof.
  intros Wx Wy Fx Fy H. destruct y as [|?|s]; try easy. cbn in Fy. split; [|rewrite div_scalar by exact Wx; eauto].
  intros z. rewrite div_scalar by exact Wx. intros E. injection E as <-.
  assert (D1 : fvalid (fdiv f1 s) = true) by (now apply fdiv_valid).
  assert (Hv : fdiv f1 (fmul fm1 s) = fopp (fdiv f1 s)) by (rewrite fm1_mul by exact Fy; apply fdiv_opp_r).
  destruct left.
  - rewrite div_scalar by now apply vneg_good. f_equal. destruct x as [m|l|t].
    + change (vmap (fun t => fmul t (fdiv f1 s)) (vneg (@Matrix NF m)) = vneg (vmap (fun t => fmul t (fdiv f1 s)) (@Matrix NF m))).
      rewrite !vmap_vmap. apply (vmap_ext (fun t : f64 => fvalid t = true)); [|exact Fx]. intros t Ht. now apply neg_mul_l.
    + change (vmap (fun t => fmul t (fdiv f1 s)) (vneg (@Vector NF l)) = vneg (vmap (fun t => fmul t (fdiv f1 s)) (@Vector NF l))).
      rewrite !vmap_vmap. apply (vmap_ext (fun t : f64 => fvalid t = true)); [|exact Fx]. intros t Ht. now apply neg_mul_l.
    + cbn in Fx. cbn [vmap]. f_equal. rewrite !fm1_mul by auto using fdiv_valid. apply fdiv_opp_l.
  - change (vneg (@Scalar NF s)) with (@Scalar NF (fmul fm1 s)). rewrite div_scalar by exact Wx. f_equal. rewrite Hv. destruct x as [m|l|t].
    + rewrite vmap_vmap. apply (vmap_ext (fun t : f64 => fvalid t = true)); [|exact Fx]. intros t Ht. rewrite fmul_opp_r, fm1_mul by auto using fmul_valid. reflexivity.
    + rewrite vmap_vmap. apply (vmap_ext (fun t : f64 => fvalid t = true)); [|exact Fx]. intros t Ht. rewrite fmul_opp_r, fm1_mul by auto using fmul_valid. reflexivity.
    + cbn in Fx. cbn [vmap]. f_equal. rewrite !fm1_mul by auto using fdiv_valid. apply fdiv_opp_r.
Qed.
Theorem c82_signs_of_products op a b c : op = OMult \/ op = OHiddenMult -> doubles a c -> doubles b c ->
  (forall lv rv, outcome a c (Ok lv) -> outcome b c (Ok rv) -> forall x y, In x lv -> In y rv -> is_scalar x \/ is_scalar y) ->
  same_values (AOp op (minus a) b) (minus (AOp op a b)) c /\ same_values (AOp op a (minus b)) (minus (AOp op a b)) c.
Proof.
  intros Hop Ha Hb Hs. split; [apply (minus_op op mult true)|apply (minus_op op mult false)]; try (destruct Hop as [-> | ->]; reflexivity);
    intros lv rv Oa Ob x y Hx Hy; specialize (Hs lv rv Oa Ob x y Hx Hy); specialize (Ha lv Oa); specialize (Hb rv Ob);
    rewrite Forall_forall in Ha, Hb; destruct (Ha x Hx), (Hb y Hy).
  - destruct (mult_neg true x y) as [P1 P2]; auto.
  - destruct (mult_neg false x y) as [P1 P2]; auto.
Qed.
Theorem c82_signs_of_quotients a b c : doubles a c -> doubles b c ->
  (forall rv, outcome b c (Ok rv) -> forall y, In y rv -> is_scalar y) ->
  same_values (AOp ODiv (minus a) b) (minus (AOp ODiv a b)) c /\ same_values (AOp ODiv a (minus b)) (minus (AOp ODiv a b)) c.
Proof.
  intros Ha Hb Hs. split; [apply (minus_op ODiv div true)|apply (minus_op ODiv div false)]; try reflexivity;
    intros lv rv Oa Ob x y Hx Hy; specialize (Hs rv Ob y Hy); specialize (Ha lv Oa); specialize (Hb rv Ob);
    rewrite Forall_forall in Ha, Hb; destruct (Ha x Hx), (Hb y Hy).
  - destruct (div_neg true x y) as [P1 P2]; auto.
  - destruct (div_neg false x y) as [P1 P2]; auto.
Qed.

(** [|-a|] is [|a|]; [-(b#a)] is [a#b]: up to the sign of zeros. *)
Lemma opp_compare (s : f64) : fltb (fopp s) f0 = fltb f0 s.
Proof. now destruct s as [[]|[]| |[] m e]. Qed.
Lemma norm_neg (l : list f64) (acc : f64) : Forall (fun t => fvalid t = true) l ->
  fold_left (fun s i => @nadd NF s (@npowi NF i 2)) (map (fun t => fmul fm1 t) l) acc = fold_left (fun s i => @nadd NF s (@npowi NF i 2)) l acc.
Proof.
  intros Fx. revert acc. induction Fx as [|t l Ht Fx IH]; intros acc; [reflexivity|]. cbn [map fold_left].
  assert (E : @npowi NF (fmul fm1 t) 2 = @npowi NF t 2).
  { change (fmul f1 (fmul (fmul fm1 t) (fmul fm1 t)) = fmul f1 (fmul t t)). rewrite fm1_mul by exact Ht. rewrite fmul_opp_l, (fmul_opp_r t t). now rewrite fopp_involutive. }
  rewrite E. apply IH.
Qed.
Lemma abs_neg x z : floats lm x -> abs x = Ok z -> exists w, abs (vneg x) = Ok w /\ same_value w z.
Proof.
  intros Fx. destruct x as [m|l|s]; [discriminate| |].
  - intros E. injection E as <-. exists (@Scalar NF (@nsqrt NF (fold_left (fun s i => @nadd NF s (@npowi NF i 2)) (map (fun t => fmul fm1 t) l) (@n0 NF)))).
    split; [reflexivity|]. rewrite norm_neg by exact Fx. apply same_refl.
  - cbn in Fx. set (g := fun t : f64 => if fltb t f0 then fmul t fm1 else t).
    assert (A : forall t : f64, @abs NF (@Scalar NF t) = Ok (@Scalar NF (g t))).
    { intros t. unfold abs, g. change (@nltb NF t n0) with (fltb t f0). now destruct (fltb t f0). }
    rewrite A. intros E. injection E as <-. change (abs (vneg (@Scalar NF s))) with (@abs NF (@Scalar NF (fmul fm1 s))). rewrite fm1_mul by exact Fx. rewrite A.
    eexists. split; [reflexivity|]. change (same_number (g (fopp s)) (g s)). unfold g. rewrite opp_compare.
    assert (Fo : fvalid (fopp s) = true) by now apply fopp_valid.
    destruct (fltb s f0) eqn:L.
    + rewrite (fltb_asym _ _ L). rewrite fmul_m1 by exact Fx. apply same_refl.
    + destruct (fltb f0 s) eqn:L'; [rewrite fmul_m1 by exact Fo; rewrite fopp_involutive; apply same_refl|].
      destruct s as [[]|[]| |[] m e]; try discriminate; try (left; reflexivity). right. split; reflexivity.
Qed.
Theorem c82_absolute_value_of_minus a c vs : doubles a c -> outcome (AOp OAbs a (number 0)) c (Ok vs) ->
  exists ws, outcome (AOp OAbs (minus a) (number 0)) c (Ok ws) /\ Forall2 same_value ws vs.
Proof.
  intros Ha H. apply op_ok_inv in H as (lv & rv & Oa & Ob & E). specialize (Ha lv Oa). rewrite Forall_forall in Ha.
  destruct (grid_fun OAbs (fun x _ => abs x) lv rv vs (fun _ _ => eq_refl) E) as [E1 E2].
  pose proof (ok_unique _ _ _ _ Ob (scalar_ok _ _)) as ->. cbn [map] in E2.
  exists (map (fun x => pick (abs (vneg x)) x) lv). split.
  - apply (op_ok OAbs _ _ c (map vneg lv) [@Scalar NF (n0 : @T NF)]); [now apply minus_ok|apply scalar_ok|].
    rewrite (grid_right OAbs (fun x _ => abs x) (fun x => pick (abs x) x)); [|reflexivity|].
    + f_equal. rewrite map_map. apply map_ext_in. intros x Hx. destruct (Ha x Hx) as [_ Fx].
      destruct (abs_neg x _ Fx (E1 x _ Hx (or_introl eq_refl))) as (w & -> & _). reflexivity.
    + intros x Hx. apply in_map_iff in Hx as (x' & <- & Hx). destruct (Ha x' Hx) as [_ Fx].
      destruct (abs_neg x' _ Fx (E1 x' _ Hx (or_introl eq_refl))) as (w & -> & _). reflexivity.
  - rewrite E2. clear E E2 Oa. induction lv as [|x lv IH]; cbn [map flat_map app]; constructor.
    + destruct (Ha x (or_introl eq_refl)) as [_ Fx]. destruct (abs_neg x _ Fx (E1 x _ (or_introl eq_refl) (or_introl eq_refl))) as (w & -> & S). exact S.
    + apply IH; [intros z Hz; apply Ha; now right|]. intros z w Hz Hw. apply (E1 z w); [now right|exact Hw].
Qed.
Theorem c82_cross_product_antisymmetric a b c x y vs : doubles a c -> doubles b c -> outcome a c (Ok [x]) -> outcome b c (Ok [y]) ->
  outcome (AOp OCross a b) c (Ok vs) -> exists ws, outcome (minus (AOp OCross b a)) c (Ok ws) /\ Forall2 same_value vs ws.
Proof.
  intros Ha Hb Oa Ob H. specialize (Ha _ Oa). specialize (Hb _ Ob). inversion Ha as [|? ? [_ Fx] _]; inversion Hb as [|? ? [_ Fy] _]; subst.
  apply op_ok_inv in H as (lv & rv & Oa' & Ob' & E). pose proof (ok_unique _ _ _ _ Oa Oa') as <-. pose proof (ok_unique _ _ _ _ Ob Ob') as <-.
  destruct (grid_fun OCross cross _ _ vs (fun _ _ => eq_refl) E) as [E1 E2]. specialize (E1 x y (or_introl eq_refl) (or_introl eq_refl)).
  cbn in E2. rewrite E2. clear E2 E. destruct x as [|u|], y as [|v|]; try discriminate. cbn [floats all_components] in Fx, Fy.
  change (cross (Vector u) (Vector v)) with (@vcross NF u v) in *. unfold vcross in E1 |- *.
  destruct (List.length u =? List.length v)%nat eqn:L; cbn [negb] in *; [|discriminate]. destruct (3 <? List.length u)%nat eqn:L3; [discriminate|]. clear E1. cbn [pick].
  assert (V : forall (l : list f64) i, Forall (fun t => fvalid t = true) l -> fvalid (nth i l f0) = true).
  { intros l i Hl. destruct (Nat.lt_ge_cases i (List.length l)); [|now rewrite nth_overflow]. rewrite Forall_forall in Hl. now apply Hl, nth_In. }
  assert (S : forall i j, same_number (fsub (fmul (nth i u f0) (nth j v f0)) (fmul (nth j u f0) (nth i v f0)))
     (fmul fm1 (fsub (fmul (nth i v f0) (nth j u f0)) (fmul (nth j v f0) (nth i u f0))))).
  { intros i j. rewrite fm1_mul by (apply fsub_valid; apply fmul_valid; auto). rewrite (fmul_comm (nth i v f0)), (fmul_comm (nth j v f0)). apply fsub_swap. }
  eexists. split.
  - apply minus_ok. apply (op_ok OCross b a c [Vector v] [Vector u]); [exact Ob|exact Oa|].
    apply (grid_left OCross cross (fun _ => pick (@vcross NF v u) (Vector v))); [reflexivity|]. intros z [<-|[]].
    change (cross (Vector v) (Vector u)) with (@vcross NF v u). unfold vcross. rewrite Nat.eqb_sym in L. rewrite L. cbn [negb].
    apply Nat.eqb_eq in L. rewrite L, L3. reflexivity.
  - constructor; [|constructor]. unfold vcross. rewrite Nat.eqb_sym in L. rewrite L. cbn [negb]. apply Nat.eqb_eq in L. rewrite L, L3.
    cbn [pick vmap map same_value]. do 3 (apply Forall2_cons; [apply S|]). apply Forall2_nil.
Qed.

(** [sqrt(a*a)] is [|a|], for numbers between 2^-500 and 2^500. *)
Theorem c82_root_of_square a c (s : f64) : doubles a c -> outcome a c (Ok [@Scalar NF s]) -> fis_finite s = true ->
  (bpow radix2 (-500) <= Rabs (fR s) <= bpow radix2 500)%R ->
  outcome (AOp OSqrt (AOp OMult a a) (number 0)) c (Ok [@Scalar NF (fabs s)]) /\ outcome (AOp OAbs a (number 0)) c (Ok [@Scalar NF (fabs s)]).
Proof.
  intros Ha H Hf Hb. specialize (Ha _ H). inversion Ha as [|? ? [_ Fv] _]; subst. cbn in Fv. split.
  - apply (op_ok OSqrt _ _ c [@Scalar NF (fmul s s)] [@Scalar NF (n0 : @T NF)]); [|apply scalar_ok|].
    + apply (op_ok OMult a a c [@Scalar NF s] [@Scalar NF s]); auto.
    + change (grid OSqrt [@Scalar NF (fmul s s)] [@Scalar NF (n0 : @T NF)]) with (@Ok EvalError (list V) [@Scalar NF (fsqrt (fmul s s))]). now rewrite fsqrt_square.
  - apply (op_ok OAbs _ _ c [@Scalar NF s] [@Scalar NF (n0 : @T NF)]); [exact H|apply scalar_ok|].
    apply (grid_left OAbs (fun x _ => abs x) (fun _ => @Scalar NF (fabs s))); [reflexivity|]. intros y _.
    unfold abs. change (@nltb NF s n0) with (fltb s f0). change (@nmul NF s nm1) with (fmul s fm1). rewrite (fmul_m1 s Fv).
    assert (Hz : fR s <> 0%R). { intros E. rewrite E, Rabs_R0 in Hb. pose proof (bpow_gt_0 radix2 (-500)). Lra.lra. }
    destruct s as [z|z| |[] m e]; try discriminate; [exfalso; now apply Hz|reflexivity|reflexivity].
Qed.

(** The other laws fail: sums and products are not associative, products do
    not distribute over sums, and [a/b*b] need not be [a]. *)
Definition dec (m e : Z) : f64 := f_of_dec false m e.
Definition dlit (m e : Z) : AST NF := AScalar (dec m e : @T NF).
Definition plus a b : AST NF := AOp OAdd a b.
Definition times a b : AST NF := AOp OMult a b.
Lemma plain_op op (f : f64 -> f64 -> f64) a b c (x y : f64) : (forall s t : f64, op_meaning op (@Scalar NF s) (@Scalar NF t) = Ok [@Scalar NF (f s t)]) ->
  outcome a c (Ok [@Scalar NF x]) -> outcome b c (Ok [@Scalar NF y]) -> outcome (AOp op a b) c (Ok [@Scalar NF (f x y)]).
Proof.
  intros Hf Ha Hb. apply (op_ok op a b c [@Scalar NF x] [@Scalar NF y]); auto. rewrite (grid_map op (fun _ _ => @Scalar NF (f x y))); [reflexivity|].
  intros v w [<-|[]] [<-|[]]. apply Hf.
Qed.
Lemma differ a b c (x y : f64) : outcome a c (Ok [@Scalar NF x]) -> outcome b c (Ok [@Scalar NF y]) -> feqb x y = false -> fis_nan x = false -> ~ same_values a b c.
Proof.
  intros Ha Hb E Hn H. apply H in Ha. pose proof (ok_unique _ _ _ _ Ha Hb) as G.
  apply (f_equal (fun l : list V => match l with [@Scalar _ s] => s | _ => x end)) in G. cbn in G. subst y.
  destruct (same_refl x) as [S|[S _]]; congruence.
Qed.
Theorem c82_laws_that_fail c :
  ~ same_values (plus (plus (dlit 1 (-1)) (dlit 2 (-1))) (dlit 3 (-1))) (plus (dlit 1 (-1)) (plus (dlit 2 (-1)) (dlit 3 (-1)))) c /\
  ~ same_values (times (times (dlit 1 (-1)) (dlit 2 (-1))) (dlit 3 (-1))) (times (dlit 1 (-1)) (times (dlit 2 (-1)) (dlit 3 (-1)))) c /\
  ~ same_values (times (dlit 1 2) (plus (dlit 1 (-1)) (dlit 2 (-1)))) (plus (times (dlit 1 2) (dlit 1 (-1))) (times (dlit 1 2) (dlit 2 (-1)))) c /\
  ~ same_values (times (AOp ODiv (dlit 1 0) (dlit 49 0)) (dlit 49 0)) (dlit 1 0) c.
Proof.
  split; [|split; [|split]].
  - eapply differ; [apply (plain_op OAdd fadd); [reflexivity|apply (plain_op OAdd fadd); [reflexivity|apply scalar_ok..]|apply scalar_ok]|
      apply (plain_op OAdd fadd); [reflexivity|apply scalar_ok|apply (plain_op OAdd fadd); [reflexivity|apply scalar_ok..]]|vm_compute; reflexivity..].
  - eapply differ; [apply (plain_op OMult fmul); [reflexivity|apply (plain_op OMult fmul); [reflexivity|apply scalar_ok..]|apply scalar_ok]|
      apply (plain_op OMult fmul); [reflexivity|apply scalar_ok|apply (plain_op OMult fmul); [reflexivity|apply scalar_ok..]]|vm_compute; reflexivity..].
  - eapply differ; [apply (plain_op OMult fmul); [reflexivity|apply scalar_ok|apply (plain_op OAdd fadd); [reflexivity|apply scalar_ok..]]|
      apply (plain_op OAdd fadd); [reflexivity|apply (plain_op OMult fmul); [reflexivity|apply scalar_ok..]|apply (plain_op OMult fmul); [reflexivity|apply scalar_ok..]]|vm_compute; reflexivity..].
  - eapply differ; [apply (plain_op OMult fmul); [reflexivity|apply (plain_op ODiv fdiv); [reflexivity|apply scalar_ok..]|apply scalar_ok]|apply scalar_ok|vm_compute; reflexivity..].
Qed.
End Laws.

(** ** Concrete cases: the session of a new default context *)
From Verif Require Import Toy PropResults.
Module Examples.
Section Ex.
Variable lm : Libm.
Hypothesis Hlm : returns_doubles lm.
Local Instance NF' : Num := F64 lm.
Context {En : Env}.
Definition in_session (c : Ctx NF') (s : str) (b : AST NF') : Prop := session lm c /\ parse s = Ok b /\ names_unknowns lm b.
(** Everything typed in a session meets the hypothesis [doubles]. *)
Lemma session_doubles c s b : in_session c s b -> doubles lm b c.
Proof. intros (H1 & H2 & H3) vs Ho. exact (c65_results_are_doubles lm Hlm c s b vs H1 H2 H3 Ho). Qed.
(** The names pi and e. *)
Definition pi_name : AST NF' := AVar (lit "pi").
Lemma pi_value : outcome pi_name (@ctx_default NF') (Ok [@Scalar NF' pi64]).
Proof. exact (@var_outcome NF' En [] (@ctx_default NF') (lit "pi")). Qed.
Lemma pi_doubles : doubles lm pi_name (@ctx_default NF').
Proof. intros vs Ho. rewrite (ok_unique lm _ _ _ _ Ho pi_value). constructor; [|constructor]. split; [exists KS; exact I|reflexivity]. Qed.
Example two_pi : same_values lm (AOp OAdd pi_name pi_name) (AOp OMult (number lm 2) pi_name) (@ctx_default NF').
Proof. exact (c82_twice lm _ _ _ pi_doubles pi_value). Qed.
Example root_pi : outcome (AOp OSqrt (AOp OMult pi_name pi_name) (number lm 0)) (@ctx_default NF') (Ok [@Scalar NF' pi64]).
Proof.
  assert (P : fR pi64 = (7074237752028440 * / 2251799813685248)%R) by reflexivity.
  assert (B : (bpow radix2 (-500) <= bpow radix2 0 /\ bpow radix2 2 <= bpow radix2 500)%R) by (split; apply bpow_le; lia).
  change (bpow radix2 0) with 1%R in B. change (bpow radix2 2) with 4%R in B.
  apply (c82_root_of_square lm _ _ pi64 pi_doubles pi_value); [reflexivity|]. rewrite P, Rabs_pos_eq; Lra.lra.
Qed.
Example pi_minus_pi : outcome (AOp OSub pi_name pi_name) (@ctx_default NF') (Ok [@Scalar NF' f0]).
Proof. exact (c82_difference_with_itself lm _ _ _ pi_doubles pi_value eq_refl). Qed.
Example pi_over_pi : outcome (AOp ODiv pi_name pi_name) (@ctx_default NF') (Ok [@Scalar NF' f1]).
Proof. exact (c82_quotient_by_itself lm _ _ pi64 pi_doubles pi_value eq_refl eq_refl). Qed.
Example reordered (t : str) (b : AST NF') : in_session (@ctx_default NF') t b ->
  same_values_reordered lm (AOp OAdd b pi_name) (AOp OAdd pi_name b) (@ctx_default NF').
Proof. intros H. apply c82_addition_commutes; [now apply (session_doubles _ t)|exact pi_doubles]. Qed.
End Ex.
End Examples.
