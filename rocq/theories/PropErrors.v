(** * PropErrors: error messages (C59). *)
From Coq Require Import List NArith ZArith Bool Lia Arith String Ascii.
From Verif Require Import Base BaseFacts F64 Num Types Maths Helpers Parser Eval Print EvalFuel SpecEval EvalProofs EvalTotal ParserSpec
  DecimalText ErrorSpec EvalErrors ParseErrors Toy.
Import ListNotations.
Local Open Scope string_scope.
Local Open Scope list_scope.

(** ** Telling messages apart *)
Lemma lit_inj s s' : lit s = lit s' -> s = s'.
Proof.
  unfold lit. revert s'. induction s as [|a s IH]; intros [|a' s']; cbn; try discriminate; auto.
  intros [= H1 H2]. f_equal; [|now apply IH].
  rewrite <- (ascii_N_embedding a), <- (ascii_N_embedding a'). now f_equal.
Qed.

(** The fixed text a message starts with. *)
Definition parser_head (e : ParserError) : string :=
  match e with
  | ParseValue _ => "Could not parse value "
  | MissingBracket => "Could not parse vector/matrix because of missing brackets!"
  | EmptyVec => "Could not parse vector/matrix because it is (partially) empty!"
  | NotRectMatrix => "Could not parse matrix because it is not rectangular!"
  | EmptyExpr => "Could not parse empty expression!"
  | UnmatchedOpenDelimiter => "Unmatched opening delimiter!"
  | UnmatchedCloseDelimiter => "Unmatched closing delimiter!"
  | EquationWithoutEqual => "Must have = in equation!"
  | TooManyEquals => "Too many = in equation. If you want to specify a system of equations please seperate each equation with a ','."
  | NoEquation => "Equation does not contain an '='!"
  | InvalidVariableName _ => "Found invalid variable name: "
  | InvalidFunctionName _ => "Found invalid function name: "
  | PWrongNumberOfArgs _ => "Wrong number of arguments for "
  end.
Definition eval_head (e : EvalError) : string :=
  match e with
  | RecursiveFunction => "Can't call a recursive function!"
  | NonScalarInVector => "Vectors can only contain scalars!"
  | NonScalarInMatrix => "Matrices can only contain scalars!"
  | VectorInEq => "Can't have vectors in equations! Please convert your equation into a system of equations!"
  | MatrixInEq => "Can't have matrices in equations!"
  | NothingToDoEq => "Nothing to do!"
  | UnderdeterminedSystem => "Underdetermined system of equations!"
  | InfiniteSolutions => "Infinite Solutions!"
  | NaNOrInf => "NaN or Inf"
  | ExpressionCheckFailed => "Expression Check Failed!"
  | SearchVarsInVars => "The given solve variables already exist in the context!"
  | NoVariable _ => "Could not find variable "
  | NoFunction _ => "Could not find function "
  | WrongNumberOfArgs _ _ => "Wrong number of arguments! Expected "
  | MathError s => s
  end.
Definition head (e : QuickEvalError) : string :=
  match e with
  | DuplicateVars => "Can't specify e and pi twice!"
  | QParserError e => parser_head e
  | QEvalError e => eval_head e
  end.
Definition parser_kinds : list ParserError :=
  [ParseValue []; MissingBracket; EmptyVec; NotRectMatrix; EmptyExpr; UnmatchedOpenDelimiter; UnmatchedCloseDelimiter; EquationWithoutEqual;
   TooManyEquals; NoEquation; InvalidVariableName []; InvalidFunctionName []; PWrongNumberOfArgs []].
Definition eval_kinds : list EvalError :=
  [RecursiveFunction; NonScalarInVector; NonScalarInMatrix; VectorInEq; MatrixInEq; NothingToDoEq; UnderdeterminedSystem; InfiniteSolutions;
   NaNOrInf; ExpressionCheckFailed; SearchVarsInVars; NoVariable []; NoFunction []; WrongNumberOfArgs 0 0].
Definition own_heads : list string := "Can't specify e and pi twice!" :: map parser_head parser_kinds ++ map eval_head eval_kinds.
Definition heads : list string := own_heads ++ math_messages.

Definition own (h : string) : bool := existsb (String.eqb h) own_heads.
Lemma own_in h : own h = true -> In h own_heads.
Proof. unfold own. intros H. apply existsb_exists in H as (x & Hx & E). apply String.eqb_eq in E. now subst. Qed.
Definition reachable (e : QuickEvalError) : Prop :=
  match e with QEvalError (MathError s) => In s math_messages | _ => True end.
Lemma head_listed e : reachable e -> In (head e) heads.
Proof.
  unfold heads. rewrite in_app_iff.
  destruct e as [|[]|[]]; cbn [reachable head]; intros H; try (left; apply own_in; vm_compute; reflexivity). now right.
Qed.
Lemma reason_head e : exists t, quick_reason e = lit (head e) ++ t.
Proof.
  destruct e as [|e|e]; [exists []; now rewrite app_nil_r| |]; cbn [quick_reason head];
    destruct e; cbn [parser_reason eval_reason parser_head eval_head]; first [eexists; reflexivity | exists []; now rewrite app_nil_r].
Qed.

(** Some position where both texts have a character, a different one. *)
Fixpoint differ (p q : str) : bool :=
  match p, q with
  | x :: p, y :: q => if N.eqb x y then differ p q else true
  | _, _ => false
  end.
Lemma differ_app p q x y : differ p q = true -> p ++ x <> q ++ y.
Proof.
  revert q. induction p as [|a p IH]; intros [|b q]; cbn; try discriminate.
  destruct (N.eqb_spec a b) as [->|H]; intros Hd [= E]; [now apply (IH q) in Hd|contradiction].
Qed.
Lemma heads_differ h h' : In h heads -> In h' heads -> h <> h' -> differ (lit h) (lit h') = true.
Proof.
  assert (H : forallb (fun h => forallb (fun h' => (String.eqb h h' || differ (lit h) (lit h'))%bool) heads) heads = true) by (vm_compute; reflexivity).
  rewrite forallb_forall in H. intros H1 H2 Hne. specialize (H _ H1). rewrite forallb_forall in H. specialize (H _ H2).
  apply orb_true_iff in H as [H|H]; [|exact H]. apply String.eqb_eq in H. contradiction.
Qed.
Lemma own_unknown h : In h own_heads -> ~ In h math_messages.
Proof.
  assert (H : forallb (fun h => negb (known h)) own_heads = true) by (vm_compute; reflexivity).
  rewrite forallb_forall in H. intros H1 H2. specialize (H _ H1). apply negb_true_iff in H. apply known_in in H2. congruence.
Qed.
Lemma head_own e : (forall s, e <> QEvalError (MathError s)) -> In (head e) own_heads.
Proof.
  intros H. destruct e as [|[]|[]]; cbn [head parser_head eval_head]; try (apply own_in; vm_compute; reflexivity).
  exfalso. eapply H. reflexivity.
Qed.

Lemma show_inj a b : show_Z a = show_Z b -> a = b.
Proof. intros H. pose proof (show_Z_exp a) as Ha. rewrite H, show_Z_exp in Ha. congruence. Qed.
Lemma digits_split p q x y : Forall (fun c => is_digit c = true) p -> Forall (fun c => is_digit c = true) q ->
  p ++ 32%N :: x = q ++ 32%N :: y -> p = q /\ x = y.
Proof.
  intros Hp. revert q. induction Hp as [|a p Ha Hp IH]; intros q Hq; destruct Hq as [|b q Hb Hq]; cbn.
  - intros [= ->]. auto.
  - intros [= <- _]. vm_compute in Hb. discriminate.
  - intros [= -> _]. vm_compute in Ha. discriminate.
  - intros [= <- E]. destruct (IH q Hq E) as [-> ->]. auto.
Qed.
Lemma show_nat_digits n : Forall (fun c => is_digit c = true) (show_Z (Z.of_nat n)).
Proof. unfold show_Z. rewrite (proj2 (Z.ltb_ge _ _)) by lia. now destruct (show_digits (Z.of_nat n) ltac:(lia)). Qed.

Lemma math_or_not e : (exists s, e = QEvalError (MathError s)) \/ forall s, e <> QEvalError (MathError s).
Proof. destruct e as [|e|e]; try (right; discriminate). destruct e; try (right; discriminate). left. eauto. Qed.
(** Reachable errors with the same message are the same error. *)
Lemma reason_inj e e' : reachable e -> reachable e' -> quick_reason e = quick_reason e' -> e = e'.
Proof.
  intros R R' E.
  assert (Hh : head e = head e').
  { destruct (string_dec (head e) (head e')) as [|Hne]; [assumption|exfalso].
    destruct (reason_head e) as (t & Ht). destruct (reason_head e') as (t' & Ht'). rewrite Ht, Ht' in E.
    revert E. apply differ_app, heads_differ; auto using head_listed. }
  assert (Hm : forall s, e = QEvalError (MathError s) -> e = e').
  { intros s ->. destruct (math_or_not e') as [(s' & ->)|Hn]; [cbn in Hh; now subst|].
    exfalso. apply (own_unknown (head e')); [now apply head_own|]. rewrite <- Hh. exact R. }
  assert (Hm' : forall s, e' = QEvalError (MathError s) -> e = e').
  { intros s ->. destruct (math_or_not e) as [(s' & ->)|Hn]; [cbn in Hh; now subst|].
    exfalso. apply (own_unknown (head e)); [now apply head_own|]. rewrite Hh. exact R'. }
  destruct e as [|e|e]; [| |destruct e; try (eapply Hm; reflexivity)];
    (destruct e' as [|e'|e']; [| |destruct e'; try (eapply Hm'; reflexivity)]); try (discriminate Hh); try reflexivity.
  all: try (destruct e; discriminate Hh). all: try (destruct e'; discriminate Hh).
  - destruct e, e'; try (discriminate Hh); try reflexivity; cbn [quick_reason parser_reason] in E;
      apply app_inv_head in E; apply app_inv_tail in E; now subst.
  - cbn [quick_reason eval_reason] in E. apply app_inv_head in E. apply app_inv_tail in E. now subst.
  - cbn [quick_reason eval_reason] in E. apply app_inv_head in E. apply app_inv_tail in E. now subst.
  - cbn [quick_reason eval_reason] in E. apply app_inv_head in E.
    change (lit " arguments, ") with (32%N :: lit "arguments, ") in E. change (lit " were given!") with (32%N :: lit "were given!") in E.
    rewrite <- !app_comm_cons in E. apply digits_split in E as [E1 E2]; try apply show_nat_digits.
    apply app_inv_head in E2. apply digits_split in E2 as [E2 _]; try apply show_nat_digits.
    apply show_inj in E1, E2. do 2 f_equal; lia.
Qed.

(** ** C59 *)
Section Claims.
Context {N : Num} {En : Env}.

(** An error of [eval] is true of the expression and the context. *)
Theorem c59_evaluation (b : AST N) (c : Ctx N) e : outcome b c (Err e) -> truthful b c e.
Proof. apply errors_truthful. Qed.

(** An error of [parse] is true of the text. *)
Theorem c59_reading s e : parse s = Err e -> quotes s e.
Proof. apply parse_errors_quote. Qed.

(** [quick_eval] passes these errors on, and raises no others. *)
Theorem c59_quick f s (c : Ctx N) e : quick_eval f s c = Err e ->
  (exists p, e = QParserError p /\ parse s = Err p /\ quotes s p) \/
  (exists b v, e = QEvalError v /\ parse s = Ok b /\ outcome b c (Err v) /\ truthful b c v).
Proof.
  unfold quick_eval. intros H. destruct (parse s) as [b|p| |] eqn:Ep; cbn [map_err bind] in H; try discriminate.
  - right. destruct (eval f b c) as [vs|v| |] eqn:Ev; cbn [map_err] in H; try discriminate. injection H as <-.
    assert (Ho : outcome b c (Err v)) by (apply (outcome_intro f); [exact Ev|discriminate]).
    exists b, v. split; [reflexivity|]. split; [reflexivity|]. split; [exact Ho|]. now apply c59_evaluation.
  - left. injection H as <-. exists p. split; [reflexivity|]. split; [reflexivity|]. now apply c59_reading.
Qed.

Lemma quick_reachable f s (c : Ctx N) e : quick_eval f s c = Err e -> reachable e.
Proof.
  intros H. destruct (c59_quick _ _ _ _ H) as [(p & -> & _)|(b & v & -> & _ & _ & T)]; [exact I|].
  destruct v; try exact I. exact T.
Qed.

(** The message identifies the error: two failing calls of [quick_eval] with
    the same message failed with the same error. *)
Theorem c59_messages f s (c : Ctx N) e f' s' (c' : Ctx N) e' :
  quick_eval f s c = Err e -> quick_eval f' s' c' = Err e' -> quick_reason e = quick_reason e' -> e = e'.
Proof. intros H H'. apply reason_inj; eapply quick_reachable; eassumption. Qed.
End Claims.

(** ** The hypotheses are met *)
Module ErrorExamples.
Definition run (s : string) : option str := option_map quick_reason (err_of (@quick_eval NT ET 9 (lit s) (mkCtx [] []))).
Example unknown : run "1 + x" = Some (lit "Could not find variable x!"). Proof. vm_compute. reflexivity. Qed.
Example unknown_f : run "2f(3)" = Some (lit "Could not find function f!"). Proof. vm_compute. reflexivity. Qed.
Example not_a_value : run "1.2.3 + 4" = Some (lit "Could not parse value 1.2.3!"). Proof. vm_compute. reflexivity. Qed.
Example bad_name : run "3 + x4" = Some (lit "Found invalid variable name: x4!"). Proof. vm_compute. reflexivity. Qed.
Example bad_args : run "root(4)" = Some (lit "Wrong number of arguments for root operation!"). Proof. vm_compute. reflexivity. Qed.
Example brackets : run "1+[2,3" = Some (lit "Could not parse vector/matrix because of missing brackets!"). Proof. vm_compute. reflexivity. Qed.
Example shapes : run "1+[2,3]" = Some (lit "Can't add vector to scalar!"). Proof. vm_compute. reflexivity. Qed.
(** The two messages "Infinite solutions" and "Infinite Solutions!" belong to
    different errors; only the first can be seen. *)
Example infinite : quick_reason (QEvalError InfiniteSolutions) <> quick_reason (QEvalError (MathError "Infinite solutions")).
Proof. vm_compute. discriminate. Qed.
Definition fg : MFun NT := mkFun (lit "g") (AVar (lit "x")) [lit "x"].
Definition run_in (b : AST NT) : option str := option_map eval_reason (err_of (@eval NT ET 9 b (mkCtx [] [fg]))).
Example arity : run_in (AFun (lit "g") [AVar (lit "a"); AVar (lit "b")]) = Some (lit "Wrong number of arguments! Expected 1 arguments, 2 were given!").
Proof. vm_compute. reflexivity. Qed.
End ErrorExamples.
