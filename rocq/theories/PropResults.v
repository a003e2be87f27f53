(** * PropResults: C65 - in every session, every result is made of doubles and
    can be read back. *)
From Coq Require Import List NArith ZArith Bool String Arith Lia SpecFloat.
From Verif Require Import Base BaseFacts F64 Num Types Maths Helpers Parser Eval EvalFuel SpecEval EvalProofs EvalTotal PropEval GrammarSpec ParserSpec ShapeSpec
  Print ParserTop PropParser FloatFacts DecimalFloat PropFloat PropRoundTrip Closure.
Import ListNotations.
Local Open Scope list_scope.

(** The platform's maths library returns doubles. *)
Record returns_doubles (lm : Libm) : Prop := {
  rd_sin : forall x, fvalid x = true -> fvalid (lm_sin lm x) = true;
  rd_cos : forall x, fvalid x = true -> fvalid (lm_cos lm x) = true;
  rd_tan : forall x, fvalid x = true -> fvalid (lm_tan lm x) = true;
  rd_asin : forall x, fvalid x = true -> fvalid (lm_asin lm x) = true;
  rd_acos : forall x, fvalid x = true -> fvalid (lm_acos lm x) = true;
  rd_atan : forall x, fvalid x = true -> fvalid (lm_atan lm x) = true;
  rd_ln : forall x, fvalid x = true -> fvalid (lm_ln lm x) = true;
  rd_powf : forall x y, fvalid x = true -> fvalid y = true -> fvalid (lm_powf lm x y) = true
}.

Lemma f_of_dec_valid s m e : fvalid (f_of_dec s m e) = true.
Proof. destruct m; try reflexivity. now apply f_of_dec_spec. Qed.
Lemma parse_unsigned_valid s t x : parse_unsigned s t = Some x -> fvalid x = true.
Proof.
  unfold parse_unsigned. repeat match goal with |- context [if ?b then _ else _] => destruct b end; try discriminate; try (intros E; injection E as <-; reflexivity).
  all: repeat match goal with |- context [match ?b with _ => _ end] => destruct b end; try discriminate; intros E; injection E as <-; apply f_of_dec_valid.
Qed.
Lemma parse_f64_valid t x : parse_f64 t = Some x -> fvalid x = true.
Proof.
  unfold parse_f64. destruct t as [|c t]; [discriminate|]. destruct (N.eqb c 45); [destruct t; [discriminate|apply parse_unsigned_valid]|].
  destruct (N.eqb c 43); [destruct t; [discriminate|apply parse_unsigned_valid]|apply parse_unsigned_valid].
Qed.

Section Results.
Variable lm : Libm.
Hypothesis Hlm : returns_doubles lm.
Local Instance NF : Num := F64 lm.
Context {En : Env}.
Notation V := (Value NF).
Notation dbl := (fun x : f64 => fvalid x = true).

Lemma doubles_closed : @closed NF dbl.
Proof.
  constructor; intros; cbn in *; try (now apply Hlm); auto using fadd_valid, fsub_valid, fmul_valid, fdiv_valid, fopp_valid, fsqrt_valid, f_of_Z_valid.
Qed.

(** Every equation in [b] names what it is solved for. *)
Definition names_unknowns (b : AST NF) : Prop := forall eqs sv, node (AEq eqs sv) b -> sv <> [].
(** Contexts that a session can reach. *)
Inductive session : Ctx NF -> Prop :=
| Start_default : session ctx_default
| Start_empty : session ctx_empty
| Assign c n s b vs : session c -> parse s = Ok b -> names_unknowns b -> outcome b c (Ok vs) -> session (add_var c (mkVar n vs))
| Insert c n vs : session c -> Forall (fun v => well_formed v /\ floats lm v) vs -> session (add_var c (mkVar n vs))
| Define c n s b params : session c -> parse s = Ok b -> names_unknowns b -> session (add_fun c (mkFun n b params))
| Forget_variable c n : session c -> session (remove_var c n)
| Forget_function c n : session c -> session (remove_fun c n).

Lemma parsed_proper s b : parse s = Ok b -> names_unknowns b -> proper_tree (N := NF) dbl b.
Proof.
  intros E Hn x Hx. pose proof (parse_fine s b E x Hx) as G. destruct x; try exact I.
  - cbn in G |- *. destruct G as [->|(t & Ht)]; [reflexivity|]. eapply parse_f64_valid; eauto.
  - exact G.
  - eapply c06_matrices_rectangular; eauto.
  - cbn. eapply Hn; eauto.
Qed.
Lemma proper_results b (c : Ctx NF) vs : proper_tree (N := NF) dbl b -> proper_context (N := NF) dbl c -> outcome b c (Ok vs) ->
  Forall (fun v => well_formed v /\ floats lm v) vs.
Proof.
  intros Hb Hc (_ & f0 & Ho). pose proof (eval_rec_w _ doubles_closed f0 b c [] Hb Hc) as G. unfold eval in Ho. rewrite Ho in G by lia. exact G.
Qed.
Lemma session_proper c : session c -> proper_context (N := NF) dbl c.
Proof.
  induction 1 as [| |c n s b vs _ IH Hp Hn Ho|c n vs _ IH Hv|c n s b params _ IH Hp Hn|c n _ IH|c n _ IH].
  - split; [|intros f []]. intros v x [<-|[<-|[]]] [<-|[]]; (apply w_scalar; reflexivity).
  - split; [intros v x []|intros f []].
  - apply proper_add; [exact IH|]. cbn. eapply proper_results; eauto using parsed_proper.
  - apply proper_add; [exact IH|exact Hv].
  - destruct IH as [C1 C2]. split; [exact C1|]. cbn. intros f Hf. apply in_app_iff in Hf as [Hf|[<-|[]]]; [apply filter_In in Hf as [Hf _]; auto|]. eapply parsed_proper; eauto.
  - now apply proper_remove.
  - destruct IH as [C1 C2]. split; [exact C1|]. cbn. intros f Hf. apply filter_In in Hf as [Hf _]; auto.
Qed.

(** ** C65 *)
Theorem c65_results_are_doubles c s b vs : session c -> parse s = Ok b -> names_unknowns b -> outcome b c (Ok vs) ->
  Forall (fun v => well_formed v /\ floats lm v) vs.
Proof. intros Hc Hp Hn Ho. eapply proper_results; eauto using session_proper, parsed_proper. Qed.
Theorem c65_variables_are_doubles c v : session c -> In v (vars c) -> Forall (fun x => well_formed x /\ floats lm x) (var_values v).
Proof. intros Hc Hv. apply session_proper in Hc as [C1 _]. apply Forall_forall. intros x Hx. now apply (C1 v). Qed.

Lemma good_number x : fvalid x = true -> (fis_inf x || fis_nan x)%bool = false -> finite x.
Proof. intros V H. split; [exact V|]. now destruct x. Qed.
Lemma good_row l : Forall dbl l -> existsb (fun x => (fis_inf x || fis_nan x)%bool) l = false -> Forall finite l.
Proof.
  intros H E. rewrite Forall_forall in *. intros x Hx. apply good_number; [auto|]. destruct (_ || _)%bool eqn:B; [|reflexivity].
  rewrite <- E. symmetry. apply existsb_exists. eauto.
Qed.
Lemma good_readable (v : V) : well_formed v -> floats lm v -> is_inf_or_nan v = false -> readable lm v.
Proof.
  intros (k & Hk) Hf Hi. destruct v as [m|l|x], k; cbn in Hk; try easy.
  - cbn. exists r, c. destruct Hk as (Hr & Hc & Hs). repeat (split; [assumption|]). cbn in Hf, Hi. rewrite Forall_forall in Hf |- *. intros l Hl.
    apply good_row; [auto|]. match goal with |- ?b = false => destruct b eqn:B; [|reflexivity] end. rewrite <- Hi. symmetry. apply existsb_exists. eauto.
  - cbn. cbn in Hf, Hi. split; [destruct l; cbn in *; [lia|discriminate]|]. now apply good_row.
  - cbn in *. now apply good_number.
Qed.
Theorem c65_results_read_back c s b vs : session c -> parse s = Ok b -> names_unknowns b -> outcome b c (Ok vs) ->
  vs <> [] -> Forall (fun v => is_inf_or_nan v = false) vs ->
  exists a ws, parse (values_as_string vs) = Ok a /\ Forall2 (reread lm) vs ws /\ forall c', outcome a c' (Ok ws).
Proof.
  intros Hc Hp Hn Ho Hne Hi. apply c41_values; [assumption|]. pose proof (c65_results_are_doubles c s b vs Hc Hp Hn Ho) as G.
  rewrite Forall_forall in *. intros v Hv. destruct (G v Hv). apply good_readable; auto.
Qed.
(** Single values likewise. *)
Theorem c65_value_reads_back c s b vs v : session c -> parse s = Ok b -> names_unknowns b -> outcome b c (Ok vs) -> In v vs -> is_inf_or_nan v = false ->
  exists w, reread lm v w /\ reads_as lm (value_as_string v) w.
Proof.
  intros Hc Hp Hn Ho Hv Hi. apply c41_value. pose proof (c65_results_are_doubles c s b vs Hc Hp Hn Ho) as G. rewrite Forall_forall in G.
  destruct (G v Hv). now apply good_readable.
Qed.
End Results.

From Verif Require Import Toy.
Module Examples.
#[local] Existing Instance ET.
Definition lmz : Libm := {| lm_sin := fun x => x; lm_cos := fun x => x; lm_tan := fun x => x; lm_asin := fun x => x; lm_acos := fun x => x; lm_atan := fun x => x;
  lm_ln := fun _ => S754_nan; lm_powf := fun x _ => x |}.
Example lmz_doubles : returns_doubles lmz.
Proof. constructor; auto. Qed.
Local Instance NF : Num := F64 lmz.
Definition b : AST NF := AOp ODiv (AVar (lit "pi")) (AVar (lit "e")).
Example parsed : @parse NF ET (lit "pi/e") = Ok b.
Proof. reflexivity. Qed.
Lemma unknowns : names_unknowns lmz b.
Proof.
  intros eqs sv Hn. inversion Hn as [|x ? Hx H1]; subst. destruct Hx as [<-|[<-|[]]]; inversion H1 as [|y ? Hy H2]; subst; destruct Hy.
Qed.
Lemma result : outcome b ctx_default (Ok [@Scalar NF (fdiv pi64 e64)]).
Proof.
  pose proof (op_outcome_grid [] ctx_default ODiv (AVar (lit "pi")) (AVar (lit "e")) [@Scalar NF pi64] [@Scalar NF e64]
    (var_outcome [] ctx_default (lit "pi")) (var_outcome [] ctx_default (lit "e"))) as H. apply H. discriminate.
Qed.
(** q := pi/e in the default context. *)
Example assigned : session lmz (add_var ctx_default (mkVar (lit "q") [@Scalar NF (fdiv pi64 e64)])).
Proof. apply (Assign lmz ctx_default (lit "q") (lit "pi/e") b); [constructor|exact parsed|exact unknowns|exact result]. Qed.
Example read_back : exists w, reread lmz (@Scalar NF (fdiv pi64 e64)) w /\ reads_as lmz (value_as_string (@Scalar NF (fdiv pi64 e64))) w.
Proof. apply (c65_value_reads_back lmz lmz_doubles ctx_default (lit "pi/e") b [@Scalar NF (fdiv pi64 e64)]); [constructor|exact parsed|exact unknowns|exact result|now left|reflexivity]. Qed.
End Examples.
