(** * PropApi: values, sets of values and errors as data (C67). *)
From Coq Require Import List NArith ZArith Bool Lia Arith Ascii String Reals SpecFloat.
From Verif Require Import Base BaseFacts F64 Num Types Maths Helpers Parser Eval Print Api FloatFacts SpecEval EvalProofs PropEval PropErrors Toy.
Import ListNotations.
Local Open Scope string_scope.
Local Open Scope list_scope.

Section Data.
Context {N : Num} {En : Env}.
Notation V := (Value N).

(** What a value is: one number, a list of numbers, or a list of rows. *)
Inductive holds : V -> T + (list T + list (list T)) -> Prop :=
| holds_scalar s : holds (Scalar s) (inl s)
| holds_vector v : holds (Vector v) (inr (inl v))
| holds_matrix m : holds (Matrix m) (inr (inr m)).

(** Each accessor returns the content of the values of its kind and nothing for
    the others, and each test agrees with its accessor; every value is of
    exactly one kind. *)
Theorem c67_accessors (v : V) :
  (forall s, get_scalar v = Some s <-> holds v (inl s)) /\
  (forall l, get_vector v = Some l <-> holds v (inr (inl l))) /\
  (forall m, get_matrix v = Some m <-> holds v (inr (inr m))) /\
  (is_scalar v = true <-> exists s, get_scalar v = Some s) /\
  (is_vector v = true <-> exists l, get_vector v = Some l) /\
  (is_matrix v = true <-> exists m, get_matrix v = Some m) /\
  (exists x, holds v x /\ forall y, holds v y -> y = x).
Proof.
  destruct v as [m|l|s]; cbn; repeat split; intros; try discriminate; try (eexists; reflexivity);
    repeat match goal with H : holds _ _ |- _ => inversion H; subst; clear H | H : Some _ = Some _ |- _ => injection H as <- | H : exists _, _ |- _ => destruct H | H : None = Some _ |- _ => discriminate end;
    try constructor; try reflexivity; try discriminate.
  - exists (inr (inr m)). split; [constructor|]. intros y H; now inversion H.
  - exists (inr (inl l)). split; [constructor|]. intros y H; now inversion H.
  - exists (inl s). split; [constructor|]. intros y H; now inversion H.
Qed.

(** The macro [value!]: one number gives a scalar, one row a vector, several
    rows a matrix with these rows. *)
Theorem c67_value_macro (rows : list (list T)) :
  (forall x, rows = [[x]] -> value_macro rows = Scalar x) /\
  (forall r, rows = [r] -> List.length r <> 1 -> value_macro rows = Vector r) /\
  (List.length rows <> 1 -> value_macro rows = Matrix rows).
Proof.
  split; [|split].
  - intros x ->. reflexivity.
  - intros r -> H. destruct r as [|x [|y r]]; [reflexivity|now destruct H|reflexivity].
  - intros H. destruct rows as [|r [|r' rows]]; [reflexivity|now destruct H|]. cbn. destruct r as [|x [|y r]]; reflexivity.
Qed.

(** A set of values is the list it was made from. *)
Theorem c67_sets (l : list V) :
  values_to_vec (values_from_vec l) = l /\
  values_len (values_from_vec l) = List.length l /\
  (forall i, i < List.length l <-> exists v, values_get (values_from_vec l) i = Some v) /\
  (forall l1 v l2, l = l1 ++ v :: l2 -> values_get (values_from_vec l) (List.length l1) = Some v).
Proof.
  unfold values_to_vec, values_from_vec, values_get, values_len. repeat split; auto.
  - intros H. destruct (nth_error l i) eqn:E; [eauto|]. apply nth_error_None in E. lia.
  - intros [v H]. apply nth_error_Some. congruence.
  - intros l1 v l2 ->. rewrite nth_error_app2, Nat.sub_diag by lia. reflexivity.
Qed.

(** A variable made by the constructors and added to a context evaluates to its
    values, under the name it was given. *)
Theorem c67_variable n (vs : list V) (c : Ctx N) :
  outcome (ast_from_variable_name n) (add_var c (variable_new n vs)) (Ok vs) /\
  outcome (ast_from_variable_name n) (add_var c (variable_new_from_values n vs)) (Ok vs).
Proof.
  assert (E : lookup_var (add_var c (mkVar n vs)) n = Some (mkVar n vs)).
  { unfold lookup_var. cbn [add_var vars var_name]. induction (vars c) as [|w l IH]; cbn [filter]; cbn.
    - now rewrite str_eqb_refl.
    - destruct (str_eqb (var_name w) n) eqn:E; cbn; [exact IH|]. now rewrite E. }
  split; exact (c15_variable _ n _ E).
Qed.
End Data.

Section Floats.
Context (lm : Libm).
Local Instance NF : Num := F64 lm.

(** All numbers in a value. *)
Definition numbers (v : Value NF) : list f64 :=
  match v with Scalar s => [s] | Vector l => l | Matrix m => List.concat m end.

(** [is_inf_or_nan] is true exactly if some number in the value is not
    finite. *)
Theorem c67_nonfinite (v : Value NF) :
  is_inf_or_nan v = true <-> exists x, In x (numbers v) /\ fis_finite x = false.
Proof.
  assert (B : forall x : f64, (@nis_inf NF x || @nis_nan NF x)%bool = true <-> fis_finite x = false).
  { intros [| | |]; cbn; split; congruence. }
  assert (L : forall l : list f64, existsb (fun x => (@nis_inf NF x || @nis_nan NF x)%bool) l = true <-> exists x, In x l /\ fis_finite x = false).
  { intros l. rewrite existsb_exists. split; intros (x & Hx & H); exists x; split; auto; now apply B. }
  destruct v as [m|l|s]; cbn [is_inf_or_nan numbers].
  - rewrite existsb_exists. split.
    + intros (r & Hr & H). apply L in H as (x & Hx & H). exists x. split; [|exact H]. apply in_concat. eauto.
    + intros (x & Hx & H). apply in_concat in Hx as (r & Hr & Hx). exists r. split; [exact Hr|]. apply L. eauto.
  - apply L.
  - rewrite B. split; [intros H; exists s; cbn; auto|]. intros (x & [<-|[]] & H). exact H.
Qed.

(** [==]: same kind, same sizes, equal numbers. *)
Inductive same_numbers (R : f64 -> f64 -> Prop) : Value NF -> Value NF -> Prop :=
| same_scalar x y : R x y -> same_numbers R (Scalar x) (Scalar y)
| same_vector x y : Forall2 R x y -> same_numbers R (Vector x) (Vector y)
| same_matrix x y : Forall2 (Forall2 R) x y -> same_numbers R (Matrix x) (Matrix y).
Lemma list_eqb_F2 {A} (e : A -> A -> bool) (R : A -> A -> Prop) (a b : list A) : (forall x y, In x a -> In y b -> e x y = true <-> R x y) -> list_eqb e a b = true <-> Forall2 R a b.
Proof.
  revert b. induction a as [|x a IH]; intros [|y b] H; cbn [list_eqb]; split; intros G; try discriminate; try (now inversion G); try constructor.
  - apply andb_true_iff in G as [G1 _]. apply (H x y); auto; now left.
  - apply andb_true_iff in G as [_ G2]. apply IH; [|exact G2]. intros; apply H; now right.
  - inversion G; subst. apply andb_true_iff. split; [apply (H x y); auto; now left|]. apply IH; [intros; apply H; now right|assumption].
Qed.
Lemma value_eqb_same (R : f64 -> f64 -> Prop) (a b : Value NF) :
  (forall x y, In x (numbers a) -> In y (numbers b) -> feqb x y = true <-> R x y) ->
  value_eqb a b = true <-> same_numbers R a b.
Proof.
  intros H. destruct a as [m|l|s], b as [m'|l'|s']; cbn [value_eqb]; try (split; intros G; [discriminate|inversion G]); cbn [numbers] in H.
  - rewrite (list_eqb_F2 _ (Forall2 R)).
    + split; intros G; [now constructor|now inversion G].
    + intros x y Hx Hy. apply list_eqb_F2. intros u w Hu Hw. apply H; apply in_concat; eauto.
  - rewrite (list_eqb_F2 _ R); [split; intros G; [now constructor|now inversion G]|exact H].
  - change (@neqb NF s s') with (feqb s s'). rewrite (H s s') by now left. split; intros G; [now constructor|now inversion G].
Qed.

(** On finite numbers [==] is equality of real numbers (so [0.] and [-0.] are
    equal), entry by entry. *)
Theorem c67_equality (a b : Value NF) :
  (forall x, In x (numbers a) -> fvalid x = true /\ fis_finite x = true) ->
  (forall x, In x (numbers b) -> fvalid x = true /\ fis_finite x = true) ->
  value_eqb a b = true <-> same_numbers (fun x y => fR x = fR y) a b.
Proof.
  intros Ha Hb. apply value_eqb_same. intros x y Hx Hy. destruct (Ha x Hx), (Hb y Hy). now apply feqb_spec.
Qed.

(** A value differs from itself exactly if it contains a NaN. *)
Theorem c67_nan_differs (a : Value NF) :
  value_eqb a a = false <-> exists x, In x (numbers a) /\ x = S754_nan.
Proof.
  assert (F : forall x, feqb x x = true <-> x <> S754_nan).
  { intros [s|s| |s m e]; cbn; split; try congruence; intros _; try (destruct s; reflexivity).
    unfold feqb, SFeqb. cbn. destruct s; rewrite Z.compare_refl; unfold Pos.compare; now rewrite Pos.compare_cont_refl. }
  assert (L : forall l : list f64, list_eqb feqb l l = true <-> ~ exists x, In x l /\ x = S754_nan).
  { induction l as [|x l IH]; cbn [list_eqb].
    - split; auto. intros _ (x & [] & _).
    - rewrite andb_true_iff, IH, F. split.
      + intros [H1 H2] (y & [<-|Hy] & E); [auto|]. apply H2. eauto.
      + intros H. split; [intros E; apply H; exists x; split; auto; now left|]. intros (y & Hy & E). apply H. exists y. split; auto; now right. }
  assert (M : forall m : list (list f64), list_eqb (list_eqb feqb) m m = true <-> ~ exists x, In x (List.concat m) /\ x = S754_nan).
  { induction m as [|r m IH]; cbn [list_eqb].
    - split; auto. intros _ (x & [] & _).
    - rewrite andb_true_iff, IH, L. cbn [List.concat]. split.
      + intros [H1 H2] (y & Hy & E). apply in_app_iff in Hy as [Hy|Hy]; [apply H1|apply H2]; eauto.
      + intros H. split; intros (y & Hy & E); apply H; exists y; rewrite in_app_iff; auto. }
  assert (D : (exists x, In x (numbers a) /\ x = S754_nan) \/ ~ (exists x, In x (numbers a) /\ x = S754_nan)).
  { destruct (existsb (fun x => match x with S754_nan => true | _ => false end) (numbers a)) eqn:E.
    - left. apply existsb_exists in E as (x & Hx & E). exists x. split; auto. now destruct x.
    - right. intros (x & Hx & ->). assert (G : existsb (fun x => match x with S754_nan => true | _ => false end) (numbers a) = true) by (apply existsb_exists; exists S754_nan; auto). congruence. }
  rewrite <- not_true_iff_false.
  assert (W : value_eqb a a = true <-> ~ exists x, In x (numbers a) /\ x = S754_nan).
  { destruct a as [m|l|s]; cbn [value_eqb numbers]; [apply M|apply L|].
    change (@neqb NF s s) with (feqb s s). rewrite F. split; [intros H (x & [<-|[]] & E); auto|intros H E; apply H; exists s; cbn; auto]. }
  rewrite W. split; [intros H; destruct D; [assumption|now destruct H]|intros H G; auto].
Qed.
End Floats.

(** ** Errors *)

(** Converting an error, as [?] does, keeps its message and loses nothing. *)
Theorem c67_conversions :
  (forall e, mathlib_reason (mathlib_of_parser e) = parser_reason e) /\
  (forall e, mathlib_reason (mathlib_of_eval e) = eval_reason e) /\
  (forall e, mathlib_reason (mathlib_of_quick e) = quick_reason e) /\
  (forall e, mathlib_reason (mathlib_of_latex e) = latex_reason e) /\
  (forall s, mathlib_reason (MOther s) = s) /\
  (forall e, quick_reason (quick_of_parser e) = parser_reason e) /\
  (forall e, quick_reason (quick_of_eval e) = eval_reason e) /\
  (forall e e', mathlib_of_parser e = mathlib_of_parser e' -> e = e') /\
  (forall e e', mathlib_of_eval e = mathlib_of_eval e' -> e = e') /\
  (forall e e', mathlib_of_quick e = mathlib_of_quick e' -> e = e') /\
  (forall e e', mathlib_of_latex e = mathlib_of_latex e' -> e = e').
Proof. repeat split; intros e e' [= H]; exact H. Qed.

(** The messages of failed LaTeX conversions tell the three kinds apart and
    contain the message of the tool. *)
Theorem c67_latex_messages (e e' : LatexError) : latex_reason e = latex_reason e' -> e = e'.
Proof.
  destruct e as [s|s|s], e' as [s'|s'|s']; cbn; intros H; try discriminate; f_equal;
    repeat (match type of H with (?x :: ?a) = (?x :: ?b) => injection H as H end); now apply app_inv_tail in H.
Qed.

Module Examples.
#[local] Existing Instance NT.
Definition zero (s : bool) : Value NT := @Scalar NT (S754_zero s).
Example zeros_equal : value_eqb (zero false) (zero true) = true. Proof. reflexivity. Qed.
Definition v_nan : Value NT := @Matrix NT [[num 1; num 2]; [num 3; S754_nan]].
Example nan_matrix : value_eqb v_nan v_nan = false /\ is_inf_or_nan v_nan = true. Proof. split; vm_compute; reflexivity. Qed.
Example macro_rows : @value_macro NT [[num 1; num 2]; [num 3; num 4]] = ma [[1; 2]; [3; 4]]%Z. Proof. reflexivity. Qed.
Example macro_ragged : @value_macro NT [[num 1; num 2]; [num 3]] = ma [[1; 2]; [3]]%Z. Proof. reflexivity. Qed.
Example in_range : exists v, values_get (values_from_vec [sc 4; sc 5]) 1 = Some v. Proof. exists (sc 5). reflexivity. Qed.
Example wrapped : mathlib_reason (mathlib_of_quick (quick_of_eval (NoVariable (lit "k")))) = lit "Could not find variable k!".
Proof. reflexivity. Qed.
End Examples.
