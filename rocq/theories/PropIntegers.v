(** * PropIntegers: C88 - with one unknown, whole-number solutions between -1000
    and 999 are found, in binary64. *)
From Coq Require Import List NArith ZArith Bool Arith Lia String Sorting.Sorted Sorting.Permutation.
From Verif Require Import Base BaseFacts F64 Num Types Maths Helpers Parser Eval SpecEval EvalFuel EvalProofs
  CalcSpec CalcProofs SolveSpec SolveProofs SolveProofs2 SearchSpec PropSolve SolveForward SolveFloat Search PropSearch KindSpec PropKinds PropAnswers Toy PropParser.
Import ListNotations.
Local Open Scope string_scope.
Local Open Scope list_scope.

Section Binary64.
Variable lm : Libm.
Local Instance NF : Num := F64 lm.
Context {En : Env}.
Notation V := (Value NF).
Notation equation := (AST NF * AST NF)%type.

(** One linear equation always has a "solution" (possibly infinite or NaN). *)
Lemma one_row (a b : @T NF) : exists d, @gauss_algorithm NF [[a; b]] = Ok d.
Proof. eexists. unfold gauss_algorithm. reflexivity. Qed.
Lemma never_flat (e : equation) check x c n xs : List.length xs = 1 ->
  ~ @run NF En misses_by [e] check [x] c n xs Flat.
Proof.
  remember Flat as fl eqn:Ef. intros Hl H. induction H as [| | |? ? ? ? Hr Ht Hc Hg| |? ? ? ? ? ? Hr Ht Hc Hg Hf H IH]; try discriminate.
  - destruct Hc as [Hcl _]. unfold residuals in Hr. apply Forall2_length in Hr. destruct rs as [|r [|? ?]]; try discriminate.
    rewrite Hl in Hcl. destruct cols as [|col [|? ?]]; discriminate.
  - apply IH; [exact Ef|]. destruct Hc as [Hcl _]. unfold residuals in Hr. apply Forall2_length in Hr. destruct rs as [|r [|? ?]]; try discriminate.
    rewrite Hl in Hcl. destruct cols as [|col [|? ?]]; try discriminate. unfold moved. rewrite map_length, combine_length, Hl.
    pose proof (gauss_length _ _ Hg) as L. rewrite L. reflexivity.
Qed.
Lemma all_searched (e : equation) check x c js found j xs : @searched NF En misses_by [e] check [x] c js found ->
  In j js -> run misses_by [e] check [x] c 1000 (start_point [x] j) (Found xs) -> In (as_solution xs) found.
Proof.
  intros H Hj Hr. induction H as [|i js ys found Hi H IH|i js found Hi H IH|i js Hi]; [contradiction| | |].
  - destruct Hj as [<-|Hj]; [|right; now apply IH]. left. pose proof (run_det _ _ _ _ _ _ _ _ Hi Hr) as E. injection E as ->. reflexivity.
  - destruct Hj as [<-|Hj]; [|now apply IH]. pose proof (run_det _ _ _ _ _ _ _ _ Hi Hr) as E. discriminate.
  - exfalso. exact (never_flat e check x c 1000 (start_point [x] i) eq_refl Hi).
Qed.

Lemma picked_all {X} (l : list X) : forall i, 1 <= i -> picked (fun i => negb (member [0] i)) i l = l.
Proof. induction l as [|y l IH]; intros i Hi; [reflexivity|]. cbn [picked]. destruct i; [lia|]. cbn. f_equal. apply IH. lia. Qed.
Lemma picked_none {X} (l : list X) : forall i, 1 <= i -> picked (member [0]) i l = [].
Proof. induction l as [|y l IH]; intros i Hi; [reflexivity|]. cbn [picked]. destruct i; [lia|]. cbn. apply IH. lia. Qed.
Lemma in_starting j : (-1000 <= j < 1000)%Z -> In j starting_numbers.
Proof.
  intros Hj. assert (G : forall n a, (a <= j < a + Z.of_nat n)%Z -> In j (integers a n)).
  { induction n as [|n IH]; intros a Ha; [lia|]. cbn [integers]. destruct (Z.eq_dec a j) as [->|]; [now left|]. right. apply IH. lia. }
  apply G. lia.
Qed.
Lemma set_nums_one (c : Ctx NF) x (t : @T NF) : set_nums c [x] [t] = set_num c x t. Proof. reflexivity. Qed.

(** The number [j] satisfies all equations in the unknown [x], up to 10^-PREC:
    the first alone, and the others together. *)
Definition satisfied_at (eqs : list equation) (x : str) (c : Ctx NF) (j : Z) : Prop :=
  exists e rest r ks, eqs = e :: rest /\ misses_by (set_num c x (nof_Z j)) e r /\ tiny [r] = true /\
    Forall2 (misses_by (set_num c x (nof_Z j))) rest ks /\ (rest = [] \/ tiny ks = true).

Lemma satisfied_found (eqs : list equation) x c j found : satisfied_at eqs x c j -> (-1000 <= j < 1000)%Z ->
  finds eqs [x] c [0] found -> In (@Scalar NF (nof_Z j)) found.
Proof.
  intros (e & rest & r & ks & -> & He & Ht & Hk & Hok) Hj Hf. unfold finds in Hf.
  assert (E1 : picked (member [0]) 0 (e :: rest) = [e]) by (change (picked (member [0]) 0 (e :: rest)) with (e :: picked (member [0]) 1 rest); f_equal; apply picked_none; lia).
  assert (E2 : picked (fun i => negb (member [0] i)) 0 (e :: rest) = rest) by (change (picked (fun i => negb (member [0] i)) 0 (e :: rest)) with (picked (fun i => negb (member [0] i)) 1 rest); apply picked_all; lia).
  rewrite E1, E2 in Hf.
  refine (all_searched e rest x c starting_numbers found j [nof_Z j] Hf (in_starting j Hj) _).
  change (@start_point NF [x] j) with [@nof_Z NF j].
  apply (run_found _ _ _ _ _ 999 [nof_Z j] [r] ks); [constructor; [exact He|constructor]|exact Ht|exact Hk|exact Hok].
Qed.

(** Whatever [eq(..., x)] returns: every whole number -1000 <= j < 1000 that
    satisfies the equations is among the answers, up to rounding to PREC - 2
    decimals - unless there are ten answers and none of them is larger in absolute
    value. *)
Theorem c88_integers (eqs : list equation) x c vs j : outcome (AEq eqs [x]) c (Ok vs) ->
  satisfied_at eqs x c j -> (-1000 <= j < 1000)%Z ->
  vs <> [] /\ exists w, (w = @Scalar NF (nof_Z j) \/ same_rounded (@Scalar NF (nof_Z j)) w = true) /\
    (In w vs \/ List.length vs = 10 /\ forall a b, sort_number w = Some b -> In (@Scalar NF a) vs -> nltb (nabs b) (nabs a) = false).
Proof.
  intros H Hs Hj. assert (Hnd : NoDup [x]) by (constructor; [intros []|constructor]).
  assert (H0 : is_choice 1 (List.length eqs) [0]).
  { destruct Hs as (e & rest & r & ks & -> & _). split; [reflexivity|]. split; [repeat constructor|]. constructor; [cbn; lia|constructor]. }
  destruct (c69_answer lm eqs [x] c vs Hnd H) as [[-> Hall]|(Hne & l & found & reps & Hc & Hf & Hr & Hsel & Hbefore)].
  - exfalso. exact (satisfied_found eqs x c j [] Hs Hj (Hall [0] H0)).
  - assert (l = [0]) as ->.
    { destruct Hc as (Hl & _ & _). destruct l as [|i [|? ?]]; try discriminate. destruct i as [|i]; [reflexivity|]. exfalso.
      refine (satisfied_found eqs x c j [] Hs Hj (Hbefore [0] H0 _)). constructor. lia. }
    split; [exact Hne|]. pose proof (satisfied_found eqs x c j found Hs Hj Hf) as Hin.
    destruct (representatives_complete _ _ _ Hr Hin) as (w & Hw & Hsame). exists w. split; [exact Hsame|].
    destruct Hsel as [[_ ->]|(_ & Hlen & rest & Hp & Hmin & _)]; [now left|].
    apply (Permutation_in _ (Permutation_sym Hp)) in Hw. apply in_app_iff in Hw as [Hw|Hw]; [now left|right]. split; [exact Hlen|].
    intros a b Hb Ha. exact (Hmin _ _ _ _ Ha Hw eq_refl Hb).
Qed.
(** In particular, with fewer than ten answers none is lost; exactly satisfied
    equations miss by 0. *)
Lemma tiny_zeros k : @tiny NF En (repeat (@n0 NF) k) = true.
Proof.
  assert (E : fold_left (fun s r : @T NF => nadd s (npowi r 2)) (repeat (@n0 NF) k) n0 = @n0 NF).
  { induction k as [|m IH]; [reflexivity|]. cbn [repeat fold_left].
    assert (Z : @nadd NF n0 (npowi n0 2) = n0) by (vm_compute; reflexivity). rewrite Z. exact IH. }
  unfold tiny, length2. rewrite E. unfold step_h, PREC. destruct high_prec; vm_compute; reflexivity.
Qed.
Theorem c88_exact_integers (eqs : list equation) x c vs j : eqs <> [] -> outcome (AEq eqs [x]) c (Ok vs) ->
  (forall e, In e eqs -> misses_by (set_num c x (nof_Z j)) e n0) -> (-1000 <= j < 1000)%Z -> List.length vs < 10 ->
  exists w, In w vs /\ (w = @Scalar NF (nof_Z j) \/ same_rounded (@Scalar NF (nof_Z j)) w = true).
Proof.
  intros Hne H He Hj Hl. destruct eqs as [|e rest]; [congruence|].
  destruct (c88_integers (e :: rest) x c vs j H) as (_ & w & Hw & [Hin|[Hlen _]]); [|exact Hj| |lia].
  - exists e, rest, n0, (repeat n0 (List.length rest)). split; [reflexivity|]. split; [apply He; now left|]. split; [exact (tiny_zeros 1)|].
    split; [|right; apply tiny_zeros]. assert (G : forall e, In e rest -> misses_by (set_num c x (nof_Z j)) e n0) by (intros; apply He; now right).
    clear -G. induction rest as [|a rest IH]; [constructor|]. cbn [List.length repeat]. constructor; [apply G; now left|apply IH; intros; apply G; now right].
  - exists w. auto.
Qed.
(** With C72: such equations about numbers always have an answer. *)
Theorem c88_solvable (eqs : list equation) x c j : ~ defined c [x] -> numeric eqs [x] c ->
  satisfied_at eqs x c j -> (-1000 <= j < 1000)%Z -> exists vs, outcome (AEq eqs [x]) c (Ok vs) /\ vs <> [].
Proof.
  intros Hd Hn Hs Hj. destruct (c72_always_an_answer lm eqs [x] c) as [vs Hv]; auto; [constructor; [intros []|constructor]|discriminate|destruct Hs as (e & rest & r & ks & -> & _); cbn; lia|].
  exists vs. split; [exact Hv|]. exact (proj1 (c88_integers eqs x c vs j Hv Hs Hj)).
Qed.
End Binary64.

Module Examples.
Local Existing Instance NT.
Local Existing Instance ET.
Definition X : str := lit "x".
Definition ctx0 : Ctx NT := mkCtx [] [].
Definition k (z : Z) : AST NT := AScalar (num z).
(** x*x - 4 = 0: the solutions 2 and -2 are found. *)
Definition square : AST NT * AST NT := (AOp OMult (AVar X) (AVar X), k 4).
Example c88_case : exists vs, outcome (AEq [square] [X]) ctx0 (Ok vs) /\
  forall j, j = 2%Z \/ j = (-2)%Z -> List.length vs < 10 -> exists w, In w vs /\ (w = sc j \/ same_rounded (sc j) w = true).
Proof.
  assert (Hn : numeric [square] [X] ctx0).
  { intros xs Hx e [<-|[]]. destruct xs as [|a [|? ?]]; try discriminate. eexists. exists []. apply (outcome_intro 5); [reflexivity|discriminate]. }
  assert (Hm : forall j, j = 2%Z \/ j = (-2)%Z -> forall e, In e [square] -> misses_by (set_num ctx0 X (nof_Z j)) e n0).
  { intros j Hj e [<-|[]]. exists []. apply (outcome_intro 5); [|discriminate]. destruct Hj as [-> | ->]; apply res_same_ok; vm_compute; reflexivity. }
  destruct (c72_always_an_answer toy [square] [X] ctx0) as [vs Hv]; auto; [constructor; [intros []|constructor]|discriminate|intros (n & v & _ & [] & _)|].
  exists vs. split; [exact Hv|]. intros j Hj Hl. refine (c88_exact_integers toy [square] X ctx0 vs j ltac:(discriminate) Hv (Hm j Hj) _ Hl). lia.
Qed.
End Examples.
