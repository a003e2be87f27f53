(** * PropFinder: property C74 ([RootFinder::new] and [find_roots], the root
    finder used directly). *)
From Coq Require Import List NArith ZArith Bool Lia Arith String Sorting.Sorted.
From Verif Require Import Base BaseFacts F64 Num Types Maths Helpers Parser Eval EvalFuel SpecEval
  EvalProofs CalcSpec SolveSpec SolveProofs SolveProofs2 PropSolve Toy.
Import ListNotations.

Section Generic.
Context {N : Num} {En : Env}.
Notation V := (Value N).
Notation A := (AST N).

(** An expression that computes something: a binary or unary operator, an
    integral, a derivative or a system of equations - not a number, a vector, a
    matrix, a list, a variable or a call. *)
Definition computes (e : A) : Prop :=
  (exists op l r, e = AOp op l r) \/ (exists i x lo hi, e = AInt i x lo hi) \/
  (exists i x p, e = ADer i x p) \/ (exists eqs xs, e = AEq eqs xs).
(** The expression is not one of those. *)
Definition plain (e : A) : Prop :=
  (exists s, e = AScalar s) \/ (exists l, e = AVector l) \/ (exists m, e = AMatrix m) \/
  (exists l, e = AList l) \/ (exists n, e = AVar n) \/ (exists n args, e = AFun n args).

(** [RootFinder::new] returns [r]. *)
Definition created (es : list A) (c : Ctx N) (sv : list str) (r : res EvalError (@RootFinder N)) : Prop :=
  r <> Fuel /\ exists f0, forall f, f0 <= f -> rf_new (eval f) es c sv = r.
(** [find_roots] returns [r]. *)
Definition roots_are (rf : @RootFinder N) (r : res EvalError (list V)) : Prop :=
  r <> Fuel /\ exists f0, forall f, f0 <= f -> find_roots (eval f) rf = r.

Lemma created_det es c sv r r' : created es c sv r -> created es c sv r' -> r = r'.
Proof. intros [_ [a Ha]] [_ [b Hb]]. rewrite <- (Ha (a + b)), <- (Hb (a + b)); auto; lia. Qed.

Lemma is_operation_iff e : is_operation e = true <-> computes e.
Proof.
  split.
  - destruct e; try discriminate; intros _; unfold computes; eauto 12.
  - intros [(op & l & r & ->)|[(i & x & lo & hi & ->)|[(i & x & p & ->)|(eqs & xs & ->)]]]; reflexivity.
Qed.
Lemma plain_iff e : is_operation e = false <-> plain e.
Proof.
  split.
  - destruct e; try discriminate; intros _; unfold plain; eauto 12.
  - intros [(x & ->)|[(x & ->)|[(x & ->)|[(x & ->)|[(x & ->)|(x & y & ->)]]]]]; reflexivity.
Qed.
Lemma all_compute es : forallb is_operation es = true <-> Forall computes es.
Proof. rewrite forallb_forall, Forall_forall. split; intros H e He; apply is_operation_iff; auto. Qed.

(** ** The errors, in the order in which they are looked for *)
Theorem c74_nothing_to_do es sv c :
  es = [] \/ (exists e, In e es /\ plain e) -> created es c sv (Err NothingToDoEq).
Proof.
  intros H. split; [discriminate|]. exists 0. intros f _. unfold rf_new. destruct es as [|e0 es]; [reflexivity|].
  destruct H as [H|(e & He & Hp)]; [discriminate|]. apply plain_iff in Hp.
  assert (E : forallb is_operation (e0 :: es) = false); [|now rewrite E].
  apply not_true_is_false. intros E. rewrite forallb_forall in E. specialize (E e He). congruence.
Qed.

Theorem c74_defined_variable es sv c : es <> [] -> Forall computes es -> defined c sv ->
  created es c sv (Err SearchVarsInVars).
Proof.
  intros Hne Ho Hd. split; [discriminate|]. exists 0. intros f _. unfold rf_new. destruct es as [|e es]; [contradiction|].
  apply all_compute in Ho. rewrite Ho. cbn [negb]. apply defined_spec in Hd. now rewrite Hd.
Qed.

Theorem c74_underdetermined es sv c : es <> [] -> Forall computes es -> ~ defined c sv ->
  List.length es < List.length sv -> created es c sv (Err UnderdeterminedSystem).
Proof.
  intros Hne Ho Hd Hl. split; [discriminate|]. exists 0. intros f _. unfold rf_new. destruct es as [|e es]; [contradiction|].
  apply all_compute in Ho. rewrite Ho. cbn [negb].
  destruct (existsb _ sv) eqn:E; [apply defined_spec in E; contradiction|].
  destruct (Nat.ltb_spec (List.length (e :: es)) (List.length sv)); [reflexivity|lia].
Qed.

(** Then the first expression is evaluated, every unknown being 8.21785; only
    its first value matters. *)
Lemma first_expression e es sv c out : Forall computes (e :: es) -> ~ defined c sv ->
  List.length sv <= S (List.length es) -> outcome e (probe_context c sv) out ->
  exists f0, forall f, f0 <= f -> rf_new (eval f) (e :: es) c sv =
    (do vs <- out; do v <- idx vs 0;
     match v with
     | Vector _ => Err VectorInEq
     | Matrix _ => Err MatrixInEq
     | Scalar _ => Ok (mkRF (e :: es)
         (if Nat.ltb (List.length sv) (List.length (e :: es)) then combs (seq 0 (List.length (e :: es))) (List.length sv)
          else [seq 0 (List.length (e :: es))]) c sv)
     end).
Proof.
  intros Ho Hd Hl [Hf [f0 H]]. exists f0. intros f Hf0. specialize (H f Hf0).
  unfold rf_new. apply all_compute in Ho. rewrite Ho. cbn [negb].
  destruct (existsb _ sv) eqn:E; [apply defined_spec in E; contradiction|].
  destruct (Nat.ltb_spec (List.length (e :: es)) (List.length sv)) as [H'|H']; [cbn in H'; lia|].
  rewrite probe_restored by (intros n v Hn Hv E'; apply Hd; exists n, v; auto).
  rewrite probe_context_eq, H, generate_combinations_eq. reflexivity.
Qed.

Theorem c74_evaluation_error e es sv c err : Forall computes (e :: es) -> ~ defined c sv ->
  List.length sv <= S (List.length es) -> outcome e (probe_context c sv) (Err err) -> created (e :: es) c sv (Err err).
Proof. intros Ho Hd Hl H. split; [discriminate|]. exact (first_expression _ _ _ _ _ Ho Hd Hl H). Qed.
Theorem c74_vector e es sv c w rest : Forall computes (e :: es) -> ~ defined c sv ->
  List.length sv <= S (List.length es) -> outcome e (probe_context c sv) (Ok (Vector w :: rest)) -> created (e :: es) c sv (Err VectorInEq).
Proof. intros Ho Hd Hl H. split; [discriminate|]. exact (first_expression _ _ _ _ _ Ho Hd Hl H). Qed.
Theorem c74_matrix e es sv c m rest : Forall computes (e :: es) -> ~ defined c sv ->
  List.length sv <= S (List.length es) -> outcome e (probe_context c sv) (Ok (Matrix m :: rest)) -> created (e :: es) c sv (Err MatrixInEq).
Proof. intros Ho Hd Hl H. split; [discriminate|]. exact (first_expression _ _ _ _ _ Ho Hd Hl H). Qed.
Theorem c74_panics e es sv c : Forall computes (e :: es) -> ~ defined c sv ->
  List.length sv <= S (List.length es) ->
  outcome e (probe_context c sv) Panic \/ outcome e (probe_context c sv) (Ok []) -> created (e :: es) c sv Panic.
Proof. intros Ho Hd Hl [H|H]; (split; [discriminate|]); exact (first_expression _ _ _ _ _ Ho Hd Hl H). Qed.

(** ** Success: exactly when none of these errors applies.  The finder holds the
    expressions, the unknowns and the caller's context as they were given (the
    probe leaves no trace), and every choice of as many expressions as there are
    unknowns, in lexicographic order. *)
Theorem c74_new es sv c rf :
  created es c sv (Ok rf) <->
  es <> [] /\ Forall computes es /\ ~ defined c sv /\ List.length sv <= List.length es /\
  (exists e x rest, hd_error es = Some e /\ outcome e (probe_context c sv) (Ok (Scalar x :: rest))) /\
  rf_expressions rf = es /\ rf_context rf = c /\ rf_search_vars rf = sv /\
  (forall l, In l (rf_combinations rf) <-> is_choice (List.length sv) (List.length es) l) /\
  StronglySorted lex (rf_combinations rf).
Proof.
  assert (Hchoices : forall l0, List.length sv <= List.length es ->
    let cs := if Nat.ltb (List.length sv) (List.length es) then combs (seq 0 (List.length es)) (List.length sv)
                else [seq 0 (List.length es)] in
    (In l0 cs <-> is_choice (List.length sv) (List.length es) l0) /\ StronglySorted lex cs).
  { intros l0 Hl. split; [now apply comb_choice|]. cbn zeta. destruct (Nat.ltb _ _); [apply combs_sorted|repeat constructor]. }
  split.
  - intros [_ [f0 H]]. specialize (H f0 (le_n _)). pose proof (rf_new_ok _ _ _ _ _ H) as (Hne & Ho & Hd & Hl & ->).
    split; [exact Hne|]. split; [now apply all_compute|].
    split; [intros (n & v & Hn & Hv & E); exact (Hd n v Hn Hv E)|]. split; [exact Hl|].
    split; [|split; [reflexivity|split; [reflexivity|split; [reflexivity|split; [intros l; apply (Hchoices l Hl)|apply (Hchoices [] Hl)]]]]].
    destruct es as [|e es]; [contradiction|]. exists e. unfold rf_new in H.
    destruct (negb (forallb is_operation (e :: es))); [discriminate|]. destruct (existsb _ sv); [discriminate|].
    destruct (Nat.ltb (List.length (e :: es)) (List.length sv)); [discriminate|]. apply bind_ok in H as (ini & Hi & H). apply bind_ok in H as (v & Hv & H).
    apply idx_ok in Hv. destruct ini as [|v0 ini]; [discriminate|]. cbn in Hv. injection Hv as ->.
    destruct v as [| |x]; try discriminate. exists x, ini. split; [reflexivity|].
    rewrite probe_context_eq in Hi. eapply outcome_intro; [exact Hi|discriminate].
  - intros (Hne & Ho & Hd & Hl & (e & x & rest & He & H) & E1 & E2 & E3 & Hc & Hs).
    destruct es as [|e' es]; [contradiction|]. cbn in He. injection He as ->.
    split; [discriminate|]. destruct (first_expression e es sv c _ Ho Hd Hl H) as [f0 Hf]. exists f0. intros f Hf0.
    rewrite (Hf f Hf0). cbn [bind idx nth_error unwrap]. f_equal. destruct rf as [res rcs rc rsv]. cbn in E1, E2, E3, Hc, Hs. subst.
    f_equal. set (cs := if Nat.ltb _ _ then _ else _).
    assert (Hcs : forall l, In l cs <-> is_choice (List.length sv) (List.length (e :: es)) l) by (intros l; apply (Hchoices l Hl)).
    assert (Hss : StronglySorted lex cs) by apply (Hchoices [] Hl).
    assert (Hin : forall l, In l cs <-> In l rcs) by (intros l; rewrite Hcs, Hc; reflexivity).
    clear -Hin Hss Hs. revert rcs Hin Hs. induction Hss as [|a l H IH Ha]; intros [|b l'] Hin Hs.
    + reflexivity.
    + exfalso. apply (Hin b). now left.
    + exfalso. apply (Hin a). now left.
    + inversion Hs as [|? ? H' Hb]; subst. rewrite Forall_forall in Ha, Hb.
      assert (E : a = b).
      { destruct (proj1 (Hin a) (or_introl eq_refl)) as [E|I1]; [auto|].
        destruct (proj2 (Hin b) (or_introl eq_refl)) as [E|I2]; [auto|].
        exfalso. exact (lex_asym _ _ (Ha _ I2) (Hb _ I1)). }
      subst b. f_equal. apply IH; [|exact H']. intros x. split; intros Hx.
      * destruct (proj1 (Hin x) (or_intror Hx)) as [->|I]; [|exact I]. exfalso. eapply lex_irrefl. apply Ha. exact Hx.
      * destruct (proj2 (Hin x) (or_intror Hx)) as [->|I]; [|exact I]. exfalso. eapply lex_irrefl. apply Hb. exact Hx.
Qed.

(** ** [eq(l1=r1, ..., x, ...)] is the root finder applied to the differences *)
Definition differences (eqs : list (A * A)) : list A := map (fun i => AOp OSub (fst i) (snd i)) eqs.
Theorem c74_equations (eqs : list (A * A)) sv c rf r :
  created (differences eqs) c sv (Ok rf) -> (outcome (AEq eqs sv) c r <-> roots_are rf r).
Proof.
  intros [_ [a Ha]]. rewrite c39_solve_is_eq. unfold solve. fold (differences eqs). split; intros [Hr [b Hb]].
  - split; [exact Hr|]. exists (a + b). intros f Hf. specialize (Hb f ltac:(lia)). now rewrite Ha in Hb by lia.
  - split; [exact Hr|]. exists (a + b). intros f Hf. rewrite Ha by lia. apply Hb. lia.
Qed.
Theorem c74_equations_error (eqs : list (A * A)) sv c e :
  created (differences eqs) c sv (Err e) -> outcome (AEq eqs sv) c (Err e).
Proof.
  intros [_ [a Ha]]. apply c39_solve_is_eq. split; [discriminate|]. exists a. intros f Hf.
  unfold solve. fold (differences eqs). now rewrite Ha by lia.
Qed.

(** The first value of an expression. *)
Definition first_value (c : Ctx N) (e : A) (s : T) : Prop := exists rest, outcome e c (Ok (Scalar s :: rest)).
(** At [xs] the expressions, split into those solved and those checked, are
    zero up to 10^-PREC. *)
Definition near_root (es : list A) (sv : list str) (c : Ctx N) (xs : list T) : Prop :=
  exists search check rs ks,
    split_into es search check /\ List.length search = List.length sv /\
    Forall2 (first_value (set_nums c sv xs)) search rs /\ nltb (length2 rs) step_h = true /\
    Forall2 (first_value (set_nums c sv xs)) check ks /\ (check = [] \/ nltb (length2 ks) step_h = true).

Lemma roots_found (Hst : forall j, In j starts -> fine (nof_Z j)) es sv c rf vs v :
  created es c sv (Ok rf) -> roots_are rf (Ok vs) -> In v vs ->
  exists xs, v = as_solution xs /\ List.length xs = List.length sv /\ Forall fine xs /\ near_root es sv c xs.
Proof.
  intros [_ [a Ha]] [_ [b Hb]] Hv. pose proof (rf_new_ok _ _ _ _ _ (Ha a (le_n _))) as (_ & _ & Hd & Hl & ->).
  specialize (Hb b (le_n _)). unfold find_roots in Hb. cbn [rf_combinations rf_expressions rf_context rf_search_vars] in Hb.
  apply comb_loop_first in Hb as [[-> _]|(_ & pre & i & post & s & k & Hcs & Hsp & Hat & _)]; [destruct Hv|].
  assert (Hi : is_choice (List.length sv) (List.length es) i).
  { apply comb_choice; [exact Hl|]. rewrite Hcs, in_app_iff. cbn. auto. }
  destruct Hi as (Hi1 & Hi2 & Hi3).
  destruct (split_exprs_ok es i Hi2 Hi3) as (s' & k' & Hsp' & Hinto & Hnth).
  rewrite Hsp in Hsp'. injection Hsp' as <- <-.
  apply (attempt_found _ Hst _ _ _ _ _ Hd) in Hat. rewrite Forall_forall in Hat.
  destruct (Hat v Hv) as (xs & -> & Hx & Hfine & rs & ks & H1 & H2 & H3 & H4).
  exists xs. split; [reflexivity|]. split; [exact Hx|]. split; [exact Hfine|].
  assert (Hm : forall l l', Forall2 (ev_misses (eval b) (set_nums c sv xs)) l l' -> Forall2 (first_value (set_nums c sv xs)) l l').
  { clear. intros l l' H. induction H as [|e s l l' [rest Hs] H IH]; constructor; auto.
    exists rest. eapply outcome_intro; [exact Hs|discriminate]. }
  exists s, k, rs, ks. split; [exact Hinto|]. split; [now rewrite <- Hi1, (Forall2_length Hnth)|].
  split; [now apply Hm|]. unfold small in *. apply andb_true_iff in H2 as [_ H2]. split; [exact H2|]. split; [now apply Hm|].
  destruct H4 as [H4|H4]; [left; now destruct k|right]. now apply andb_true_iff in H4 as [_ H4].
Qed.
End Generic.

(** ** What is returned is a root *)
Section Binary64.
Variable lm : Libm.
Local Instance NF : Num := F64 lm.
Context {En : Env}.
Theorem c74_roots (es : list (AST NF)) sv c rf vs v :
  created es c sv (Ok rf) -> roots_are rf (Ok vs) -> In v vs ->
  exists xs : list f64, v = as_solution xs /\ List.length xs = List.length sv /\
    Forall (fun x => fis_finite x = true) xs /\ near_root es sv c xs.
Proof.
  intros H1 H2 Hv. destruct (roots_found (starts_fine lm) es sv c rf vs v H1 H2 Hv) as (xs & E & Hl & Hf & Hn).
  exists xs. repeat split; auto. eapply Forall_impl; [|exact Hf]. intros x Hx. unfold fine in Hx. cbn in Hx. destruct x; cbn in *; congruence.
Qed.
End Binary64.

Module Examples.
Local Existing Instance NT.
Local Existing Instance ET.
Definition ctx0 : Ctx NT := mkCtx [] [].
Definition X := lit "x".
(** The roots of [x+1000] and, redundantly, of [(x+1000)*2]: a finder is
    created; the variable alone is refused. *)
Definition x1000 : AST NT := AOp OAdd (AVar X) (AScalar (num 1000)).
Definition twice : AST NT := AOp OMult x1000 (AScalar (num 2)).
Example created_finder : exists rf, created [x1000; twice] ctx0 [X] (Ok rf) /\ rf_combinations rf = [[0]; [1]] /\ rf_context rf = ctx0.
Proof.
  eexists. split; [split; [discriminate|exists 3; intros f Hf]|split].
  - do 3 (destruct f as [|f]; [lia|]). reflexivity.
  - reflexivity.
  - reflexivity.
Qed.
(** The finder behind the system of [PropSolve] finds its solution. *)
Example finds : exists rf vs, created (differences PropSolve.Examples.system) PropSolve.Examples.ctx0 [PropSolve.Examples.X; PropSolve.Examples.Y] (Ok rf) /\
  roots_are rf (Ok vs) /\ vs <> [].
Proof.
  eexists. eexists. match goal with |- ?A /\ _ => assert (H : A) end.
  { split; [discriminate|exists 4; intros f Hf]. do 4 (destruct f as [|f]; [lia|]). reflexivity. }
  split; [exact H|]. split; [|].
  - apply (c74_equations _ _ _ _ _ H). exact PropSolve.Examples.solved.
  - discriminate.
Qed.
Example refused : created [x1000; AVar X] ctx0 [X] (Err NothingToDoEq).
Proof. apply c74_nothing_to_do. right. exists (AVar X). split; [cbn; auto|]. unfold plain. eauto 12. Qed.
Example refused_call : created [AFun (lit "f") [AVar X]] ctx0 [X] (Err NothingToDoEq).
Proof. apply c74_nothing_to_do. right. exists (AFun (lit "f") [AVar X]). split; [cbn; auto|]. unfold plain. eauto 12. Qed.
End Examples.
