(** * PropNotation: C53 - parentheses and multiplication signs do not matter. *)
From Coq Require Import List NArith ZArith Bool String Arith Lia.
From Verif Require Import Base BaseFacts F64 Num Types Maths Helpers Parser Eval EvalFuel SpecEval EvalProofs PropEval PropLatex Parens PropString Toy.
Import ListNotations.
Local Open Scope string_scope.
Local Open Scope list_scope.

Section Notation_.
Context {N : Num} {En : Env}.

(** ** Specification *)
(** Trees that differ only in where parentheses and multiplication signs are
    written: [(a)] for [a], [a b] for [a * b], anywhere in the tree. *)
Inductive alike : AST N -> AST N -> Prop :=
| Al_parens a z : alike (AOp OParenths a (AScalar z)) a
| Al_sign a b : alike (AOp OHiddenMult a b) (AOp OMult a b)
| Al_sym a b : alike a b -> alike b a
| Al_trans a b c : alike a b -> alike b c -> alike a c
| Al_refl a : alike a a
| Al_vector l l' : Forall2 alike l l' -> alike (AVector l) (AVector l')
| Al_matrix m m' : Forall2 (Forall2 alike) m m' -> alike (AMatrix m) (AMatrix m')
| Al_list l l' : Forall2 alike l l' -> alike (AList l) (AList l')
| Al_call f l l' : Forall2 alike l l' -> alike (AFun f l) (AFun f l')
| Al_op op a a' b b' : op <> OParenths -> alike a a' -> alike b b' -> alike (AOp op a b) (AOp op a' b')
| Al_integral e e' x l l' u u' : alike e e' -> alike l l' -> alike u u' -> alike (AInt e x l u) (AInt e' x l' u')
| Al_derivative e e' x p p' : alike e e' -> alike p p' -> alike (ADer e x p) (ADer e' x p')
| Al_system eqs eqs' xs : Forall2 (fun q q' => alike (fst q) (fst q') /\ alike (snd q) (snd q')) eqs eqs' -> alike (AEq eqs xs) (AEq eqs' xs).
(** Contexts with the same variables, and functions with bodies that are alike. *)
Definition alike_functions (f g : MFun N) : Prop :=
  fun_name f = fun_name g /\ fun_inputs f = fun_inputs g /\ alike (fun_ast f) (fun_ast g).
Definition alike_contexts (c d : Ctx N) : Prop := vars c = vars d /\ Forall2 alike_functions (funs c) (funs d).

(** ** Proof *)
Lemma op_congruence op a a' b b' : op <> OParenths -> plain_tree a = plain_tree a' -> plain_tree b = plain_tree b' ->
  plain_tree (AOp op a b) = plain_tree (AOp op a' b').
Proof.
  intros Hop H1 H2. assert (E : forall r, is_parens op r = false) by (intros r; destruct op; try reflexivity; congruence).
  rewrite !plain_op_tree by apply E. congruence.
Qed.
Fixpoint alike_plain a b (H : alike a b) {struct H} : plain_tree a = plain_tree b.
Proof.
  assert (L : forall l l', Forall2 alike l l' -> map plain_tree l = map plain_tree l').
  { fix rec 3. intros l l' [|x y k k' Hx Hk]; [reflexivity|]. cbn [map]. f_equal; [exact (alike_plain _ _ Hx)|exact (rec _ _ Hk)]. }
  destruct H as [a z|a b|a b H|a b c H1 H2|a|l l' H|m m' H|l l' H|f l l' H|op a a' b b' Hop H1 H2|e e' x l l' u u' H1 H2 H3|e e' x p p' H1 H2|eqs eqs' xs H].
  - reflexivity.
  - reflexivity.
  - symmetry. exact (alike_plain _ _ H).
  - transitivity (plain_tree b); [exact (alike_plain _ _ H1)|exact (alike_plain _ _ H2)].
  - reflexivity.
  - cbn [plain_tree]. f_equal. exact (L _ _ H).
  - cbn [plain_tree]. f_equal. revert m m' H. fix rec 3. intros m m' [|x y k k' Hx Hk]; [reflexivity|]. cbn [map]. f_equal; [exact (L _ _ Hx)|exact (rec _ _ Hk)].
  - cbn [plain_tree]. f_equal. exact (L _ _ H).
  - cbn [plain_tree]. f_equal. exact (L _ _ H).
  - exact (op_congruence op a a' b b' Hop (alike_plain _ _ H1) (alike_plain _ _ H2)).
  - cbn [plain_tree]. f_equal; [exact (alike_plain _ _ H1)|exact (alike_plain _ _ H2)|exact (alike_plain _ _ H3)].
  - cbn [plain_tree]. f_equal; [exact (alike_plain _ _ H1)|exact (alike_plain _ _ H2)].
  - cbn [plain_tree]. f_equal. revert eqs eqs' H. fix rec 3. intros m m' [|x y k k' [Hx Hy] Hk]; [reflexivity|]. cbn [map]. f_equal; [|exact (rec _ _ Hk)].
    f_equal; [exact (alike_plain _ _ Hx)|exact (alike_plain _ _ Hy)].
Qed.
Lemma alike_ctx_plain c d : alike_contexts c d -> plain_ctx c = plain_ctx d.
Proof.
  intros [Hv Hf]. unfold plain_ctx. rewrite Hv. f_equal. induction Hf as [|f g l l' (H1 & H2 & H3) Hf IH]; [reflexivity|]. cbn [map]. rewrite IH. f_equal.
  unfold plain_fun. rewrite H1, H2. now rewrite (alike_plain _ _ H3).
Qed.
Lemma outcome_or_diverges a (c : Ctx N) : (forall r, ~ outcome a c r) <-> diverges a c.
Proof.
  split.
  - intros H f. destruct (eval f a c) as [v|e| |] eqn:E; try reflexivity; exfalso; eapply H, (outcome_intro f); try exact E; discriminate.
  - intros H r [Hr [f0 G]]. apply Hr. rewrite <- (G f0 (le_n _)). apply H.
Qed.

(** ** C53 *)
(** The same result: values, error or panic. *)
Theorem c53_same_outcome a b c d r : alike a b -> alike_contexts c d -> outcome a c r <-> outcome b d r.
Proof.
  intros H Hc. rewrite (plain_outcome a c r), (plain_outcome b d r). now rewrite (alike_plain a b H), (alike_ctx_plain c d Hc).
Qed.
(** Neither of the two runs for ever alone. *)
Theorem c53_same_termination a b c d : alike a b -> alike_contexts c d -> diverges a c <-> diverges b d.
Proof.
  intros H Hc. rewrite <- !outcome_or_diverges. split; intros G r Hr; apply (G r); now apply (c53_same_outcome a b c d r).
Qed.
(** For texts. *)
Theorem c53_texts s t a b (c : Ctx N) r : parse s = Ok a -> parse t = Ok b -> alike a b ->
  quick_outcome s c r <-> quick_outcome t c r.
Proof.
  intros Ea Eb H. assert (Hc : alike_contexts c c).
  { split; [reflexivity|]. induction (funs c); constructor; auto. repeat split. apply Al_refl. }
  rewrite (quick_of_parse s a c r Ea), (quick_of_parse t b c r Eb).
  split; intros (r0 & H0 & E); exists r0; (split; [|exact E]); now apply (c53_same_outcome a b c c r0 H Hc).
Qed.
End Notation_.

Module Examples.
Section Ex.
Context {En : Env}.
Local Instance NX : Num := NT.
(** [f(x)=2x] and [(3f(x))(4)] against [f(x)=(2*(x))] and [3*f((x))*4]. *)
Let two : AST NX := AScalar (num 2). Let three : AST NX := AScalar (num 3). Let four : AST NX := AScalar (num 4). Let zero : AST NX := AScalar (num 0).
Let x : AST NX := AVar (lit "x").
Let par (a : AST NX) : AST NX := AOp OParenths a zero.
Let c1 : Ctx NX := mkCtx [mkVar (lit "x") [@Scalar NX (num 5)]] [mkFun (lit "f") (AOp OHiddenMult two x) [lit "x"]].
Let c2 : Ctx NX := mkCtx [mkVar (lit "x") [@Scalar NX (num 5)]] [mkFun (lit "f") (par (AOp OMult two (par x))) [lit "x"]].
Example alike_ex : alike (AOp OHiddenMult (par (AOp OHiddenMult three (AFun (lit "f") [x]))) (par four))
  (AOp OMult (AOp OMult three (AFun (lit "f") [par x])) four).
Proof.
  eapply Al_trans; [apply Al_sign|]. apply Al_op; [discriminate| |apply Al_parens].
  eapply Al_trans; [apply Al_parens|]. eapply Al_trans; [apply Al_sign|]. apply Al_op; [discriminate|apply Al_refl|].
  apply Al_call. constructor; [apply Al_sym, Al_parens|constructor].
Qed.
Example contexts_ex : alike_contexts c1 c2.
Proof.
  split; [reflexivity|]. constructor; [|constructor]. split; [reflexivity|]. split; [reflexivity|]. cbn.
  eapply Al_trans; [apply Al_sign|]. apply Al_sym. eapply Al_trans; [apply Al_parens|]. apply Al_op; [discriminate|apply Al_refl|apply Al_parens].
Qed.
Example same_ex r : outcome (AOp OHiddenMult (par (AOp OHiddenMult three (AFun (lit "f") [x]))) (par four)) c1 r <->
  outcome (AOp OMult (AOp OMult three (AFun (lit "f") [par x])) four) c2 r.
Proof. apply c53_same_outcome; [apply alike_ex|apply contexts_ex]. Qed.
End Ex.
End Examples.
