(** * EvalFuel: more fuel never changes an outcome of [eval]. *)
From Coq Require Import List NArith ZArith Bool Lia Arith.
From Verif Require Import Base BaseFacts F64 Num Types Maths Helpers Parser Eval.
Import ListNotations.

Section Mono.
Context {N : Num} {En : Env}.

Definition evle (ev ev' : AST N -> Ctx N -> res EvalError (list (Value N))) : Prop :=
  forall b c, rle (ev b c) (ev' b c).

(** Outcomes paired with a state: the state of an undefined outcome does not
    matter. *)
Definition ple {E A S} (p p' : res E A * S) : Prop := fst p = Fuel \/ p = p'.
Lemma ple_fst {E A S} (p p' : res E A * S) : ple p p' -> rle (fst p) (fst p').
Proof. intros [H| ->]; [left; exact H|apply rle_refl]. Qed.

Ltac mono :=
  repeat match goal with
  | |- rle ?a ?a => apply rle_refl
  | |- rle Fuel _ => apply rle_fuel
  | |- rle (bind _ _) (bind _ _) => apply rle_bind; [|intros ?]
  | |- rle (mapM _ _) (mapM _ _) => apply rle_mapM; intros ?
  | |- rle (concatM _ _) (concatM _ _) => apply rle_concatM; intros ?
  | H : evle ?e ?e' |- rle (?e _ _) (?e' _ _) => apply H
  | |- rle (match ?x with _ => _ end) (match ?x with _ => _ end) => destruct x
  end.

Section WithEv.
Variables ev ev' : AST N -> Ctx N -> res EvalError (list (Value N)).
Hypothesis Hev : evle ev ev'.

Lemma integral_loop_mono f f' e x c vs dx ub b sums :
  f <= f' ->
  rle (integral_loop ev f e x c vs dx ub b sums) (integral_loop ev' f' e x c vs dx ub b sums).
Proof.
  revert f' b sums; induction f as [|f IH]; intros f' b sums Hf; cbn [integral_loop]; [apply rle_fuel|].
  destruct f' as [|f']; [lia|]. cbn [integral_loop]. destruct (nltb b ub); [|apply rle_refl].
  mono. apply IH; lia.
Qed.

Lemma integral_mono f f' e x l u c :
  f <= f' -> rle (calculate_integral ev f e x l u c) (calculate_integral ev' f' e x l u c).
Proof.
  intros Hf; unfold calculate_integral. mono; now apply integral_loop_mono.
Qed.

Lemma derivative_mono e x a c :
  ple (calculate_derivative ev e x a c) (calculate_derivative ev' e x a c).
Proof.
  unfold calculate_derivative. destruct a; try (now right).
  set (c1 := add_var _ _). destruct (Hev e c1) as [->| ->]; [now left|].
  destruct (ev' e c1) as [fxs|er| |]; try now right.
  set (c2 := add_var _ _). destruct (Hev e c2) as [->| ->]; [now left|].
  destruct (ev' e c2) as [fxhs|er| |]; try now right.
  destruct (negb _); [now right|].
  match goal with |- ple (match mapM ?f ?l with _ => _ end) (match mapM ?f' _ with _ => _ end) =>
    assert (H : rle (mapM f l) (mapM f' l)) by mono end.
  destruct H as [H|H]; rewrite H; [now left|]. now right.
Qed.

Lemma derivative_newton_mono e x a fx c :
  rle (calculate_derivative_newton ev e x a fx c) (calculate_derivative_newton ev' e x a fx c).
Proof. unfold calculate_derivative_newton. mono. Qed.

Lemma jacobi_mono s x c fx :
  rle (jacobi_and_gauss ev s x c fx) (jacobi_and_gauss ev' s x c fx).
Proof. unfold jacobi_and_gauss. mono. apply derivative_newton_mono. Qed.

Lemma eval_scalar_mono c e : rle (eval_scalar ev c e) (eval_scalar ev' c e).
Proof. unfold eval_scalar; mono. Qed.

Lemma newton_mono s k x c : ple (newton ev s k x c) (newton ev' s k x c).
Proof.
  unfold newton.
  assert (H := rle_mapM _ _ s (eval_scalar_mono (add_all c x))).
  destruct H as [H|H]; rewrite H; [now left|].
  destruct (mapM (eval_scalar ev' _) s) as [fx|er| |]; try now right.
  destruct (small fx).
  - assert (H1 := rle_mapM _ _ k (eval_scalar_mono (add_all (remove_all (add_all c x) x) x))).
    destruct H1 as [H1|H1]; rewrite H1; [now left|now right].
  - destruct (jacobi_mono s x (remove_all (add_all c x) x) fx) as [H1|H1]; rewrite H1; [now left|now right].
Qed.

Lemma newton_loop_mono n s k x c : rle (newton_loop ev n s k x c) (newton_loop ev' n s k x c).
Proof.
  revert x c; induction n as [|n IH]; intros x c; cbn [newton_loop]; [apply rle_refl|].
  destruct (newton_mono s k x c) as [H| ->].
  - destruct (newton ev s k x c) as [r c']; cbn in H; subst r. apply rle_fuel.
  - destruct (newton ev' s k x c) as [r c']. destruct r as [[y|y]|er| |]; mono. apply IH.
Qed.

Lemma start_loop_mono js s k sv c r :
  rle (start_loop ev js s k sv c r) (start_loop ev' js s k sv c r).
Proof.
  revert c r; induction js as [|j js IH]; intros c r; cbn [start_loop]; [apply rle_refl|].
  apply rle_bind; [apply newton_loop_mono|]. intros [[v stop] c']. destruct stop; mono. apply IH.
Qed.

Lemma comb_loop_mono cs es c sv : rle (comb_loop ev cs es c sv) (comb_loop ev' cs es c sv).
Proof.
  induction cs as [|i cs IH]; cbn [comb_loop]; [apply rle_refl|].
  mono; [apply start_loop_mono|apply IH].
Qed.

Lemma rf_new_mono es c sv : rle (rf_new ev es c sv) (rf_new ev' es c sv).
Proof. unfold rf_new. mono. Qed.

Lemma solve_mono eqs c sv : rle (solve ev eqs c sv) (solve ev' eqs c sv).
Proof.
  unfold solve. apply rle_bind; [apply rf_new_mono|intros rf]. apply comb_loop_mono.
Qed.
End WithEv.

Lemma eval_rec_mono f f' b c l : f <= f' -> rle (eval_rec f b c l) (eval_rec f' b c l).
Proof.
  revert f' b c l; induction f as [|f IH]; intros f' b c l Hf; [apply rle_fuel|].
  destruct f' as [|f']; [lia|]. assert (Hf' : f <= f') by lia.
  assert (Hev : evle (fun b c => eval_rec f b c []) (fun b c => eval_rec f' b c [])).
  { intros b' c'; now apply IH. }
  cbn [eval_rec]. destruct b; mono; try (now apply IH).
  - now apply integral_mono.
  - apply ple_fst, derivative_mono, Hev.
  - now apply rf_new_mono.
  - now apply comb_loop_mono.
Qed.
End Mono.
