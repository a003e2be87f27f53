(** * PropSolve: properties C32-C35, C37 and C39 (equations). *)
From Coq Require Import List NArith ZArith Bool Lia Arith String Sorting.Permutation Sorting.Sorted SpecFloat Reals.
From Verif Require Import Base BaseFacts F64 Num Types Maths Helpers Parser Eval EvalFuel SpecEval
  EvalProofs CalcSpec SolveSpec SolveProofs SolveProofs2 FloatFacts SolveFloat Toy.
Import ListNotations.

Section Generic.
Context {N : Num} {En : Env}.
Notation V := (Value N).
Notation equation := (AST N * AST N)%type.

(** ** C39: the deprecated [solve] and [eq] agree *)
Theorem c39_solve_is_eq (eqs : list equation) sv c r :
  outcome (AEq eqs sv) c r <->
  r <> Fuel /\ exists f0, forall f, f0 <= f -> solve (eval f) eqs c sv = r.
Proof.
  split; intros [Hr [f0 H]]; (split; [exact Hr|]).
  - exists f0. intros f Hf. rewrite <- (H (S f)) by lia. reflexivity.
  - exists (S f0). intros [|f] Hf; [lia|]. rewrite <- (H f) by lia. reflexivity.
Qed.

Lemma outcome_solve (eqs : list equation) sv c r : outcome (AEq eqs sv) c r ->
  exists f, solve (eval f) eqs c sv = r.
Proof. intros H. apply c39_solve_is_eq in H as [_ [f0 H]]. exists f0. apply H. lia. Qed.
Lemma solve_outcome (eqs : list equation) sv c r f :
  solve (eval f) eqs c sv = r -> r <> Fuel -> outcome (AEq eqs sv) c r.
Proof. intros H Hr. apply (outcome_intro (S f)); [exact H|exact Hr]. Qed.

(** ** C35: which error *)
(** The name of a search variable is already defined. *)
Definition defined (c : Ctx N) (sv : list str) : Prop :=
  exists n v, In n sv /\ In v (vars c) /\ var_name v = n.
(** Where the first equation is tried out: every search variable set to the
    number 8.21785. *)
Definition probe_context (c : Ctx N) (sv : list str) : Ctx N :=
  set_nums c sv (repeat nprobe (List.length sv)).

Lemma defined_spec c sv :
  existsb (fun n => existsb (fun v : MVar N => str_eqb (var_name v) n) (vars c)) sv = true <-> defined c sv.
Proof.
  rewrite existsb_exists. split.
  - intros (n & Hn & H). apply existsb_exists in H as (v & Hv & E). apply str_eqb_eq in E. exists n, v. auto.
  - intros (n & v & Hn & Hv & E). exists n. split; [exact Hn|]. apply existsb_exists. exists v. split; [exact Hv|].
    now apply str_eqb_eq.
Qed.

Theorem c35_no_equation sv c : outcome (AEq [] sv) c (Err NothingToDoEq).
Proof. apply (outcome_intro 1); [reflexivity|discriminate]. Qed.

Lemma all_operations (eqs : list equation) :
  forallb is_operation (map (fun i => AOp OSub (fst i) (snd i)) eqs) = true.
Proof. induction eqs; [reflexivity|exact IHeqs]. Qed.

Theorem c35_defined_variable eqs sv c : eqs <> [] -> defined c sv ->
  outcome (AEq eqs sv) c (Err SearchVarsInVars).
Proof.
  intros Hne Hd. apply (solve_outcome _ _ _ _ 0); [|discriminate]. unfold solve, rf_new.
  destruct eqs as [|e eqs]; [contradiction|]. apply defined_spec in Hd.
  pose proof (all_operations (e :: eqs)) as Ho. cbn [map] in *. rewrite Ho. cbn [negb]. now rewrite Hd.
Qed.

Theorem c35_underdetermined eqs sv c : eqs <> [] -> ~ defined c sv ->
  List.length eqs < List.length sv -> outcome (AEq eqs sv) c (Err UnderdeterminedSystem).
Proof.
  intros Hne Hd Hl. apply (solve_outcome _ _ _ _ 0); [|discriminate]. unfold solve, rf_new.
  destruct eqs as [|e eqs]; [contradiction|].
  pose proof (all_operations (e :: eqs)) as Ho. cbn [map] in *. rewrite Ho. cbn [negb].
  destruct (existsb _ sv) eqn:E; [apply defined_spec in E; contradiction|].
  destruct (Nat.ltb_spec (List.length (AOp OSub (fst e) (snd e) :: map (fun i => AOp OSub (fst i) (snd i)) eqs)) (List.length sv)) as [H|H];
    [reflexivity|]. cbn in *. rewrite map_length in H. lia.
Qed.

Lemma probe_context_eq c sv :
  fold_left (fun c n => add_var c (mkVar n [Scalar nprobe])) sv c = probe_context c sv.
Proof.
  unfold probe_context. rewrite set_nums_add_all, <- pvars_start. unfold add_all.
  revert c. induction sv as [|n sv IH]; intros c; cbn; [reflexivity|apply IH].
Qed.

(** Everything else is decided by the first value of the first equation. *)
Lemma first_equation l r eqs sv c out : ~ defined c sv -> List.length sv <= S (List.length eqs) ->
  outcome (AOp OSub l r) (probe_context c sv) out ->
  (forall vs s rest, out = Ok vs -> vs <> Scalar s :: rest) ->
  outcome (AEq ((l, r) :: eqs) sv) c
    (do vs <- out; do v <- idx vs 0;
     match v with Vector _ => Err VectorInEq | Matrix _ => Err MatrixInEq | Scalar _ => Ok [] end).
Proof.
  intros Hd Hl [Hf [f0 H]] Hns. apply c39_solve_is_eq. split.
  { destruct out as [vs|e| |]; cbn; try discriminate; [|contradiction]. destruct vs as [|[| |s] vs]; cbn; discriminate. }
  exists f0. intros f Hf0. specialize (H f Hf0). unfold solve, rf_new.
  pose proof (all_operations ((l, r) :: eqs)) as Ho. cbn [map fst snd] in *. rewrite Ho. cbn [negb].
  destruct (existsb _ sv) eqn:E; [apply defined_spec in E; contradiction|].
  destruct (Nat.ltb_spec (List.length (AOp OSub l r :: map (fun i => AOp OSub (fst i) (snd i)) eqs)) (List.length sv)) as [H'|H'].
  { cbn in *. rewrite map_length in H'. lia. }
  rewrite probe_context_eq, H. destruct out as [vs|e| |]; cbn [bind]; try reflexivity.
  destruct vs as [|v vs]; [reflexivity|]. cbn [idx nth_error unwrap bind].
  destruct v as [m|w|s]; try reflexivity. exfalso. eapply Hns; reflexivity.
Qed.

Theorem c35_vector l r eqs sv c w rest : ~ defined c sv -> List.length sv <= S (List.length eqs) ->
  outcome (AOp OSub l r) (probe_context c sv) (Ok (Vector w :: rest)) ->
  outcome (AEq ((l, r) :: eqs) sv) c (Err VectorInEq).
Proof. intros Hd Hl H. apply (first_equation l r eqs sv c _ Hd Hl H). congruence. Qed.
Theorem c35_matrix l r eqs sv c m rest : ~ defined c sv -> List.length sv <= S (List.length eqs) ->
  outcome (AOp OSub l r) (probe_context c sv) (Ok (Matrix m :: rest)) ->
  outcome (AEq ((l, r) :: eqs) sv) c (Err MatrixInEq).
Proof. intros Hd Hl H. apply (first_equation l r eqs sv c _ Hd Hl H). congruence. Qed.
Theorem c35_evaluation_error l r eqs sv c e : ~ defined c sv -> List.length sv <= S (List.length eqs) ->
  outcome (AOp OSub l r) (probe_context c sv) (Err e) ->
  outcome (AEq ((l, r) :: eqs) sv) c (Err e).
Proof. intros Hd Hl H. apply (first_equation l r eqs sv c _ Hd Hl H). congruence. Qed.
(** (A first equation without any value makes the program panic.) *)
Theorem c35_no_value_panics l r eqs sv c : ~ defined c sv -> List.length sv <= S (List.length eqs) ->
  outcome (AOp OSub l r) (probe_context c sv) (Ok []) ->
  outcome (AEq ((l, r) :: eqs) sv) c Panic.
Proof. intros Hd Hl H. apply (first_equation l r eqs sv c _ Hd Hl H). congruence. Qed.

(** Conversely a result is only returned when none of this is the case. *)
Theorem c35_ok_only_if eqs sv c vs : outcome (AEq eqs sv) c (Ok vs) ->
  eqs <> [] /\ ~ defined c sv /\ List.length sv <= List.length eqs /\
  exists e s, nth_error eqs 0 = Some e /\ misses_by (probe_context c sv) e s.
Proof.
  intros H. apply outcome_solve in H as [f H]. pose proof (solve_ok_inv _ _ _ _ _ H) as (H1 & H2 & H3 & _).
  repeat split; auto.
  { intros (n & v & Hn & Hv & E). exact (H2 n v Hn Hv E). }
  destruct eqs as [|e eqs]; [contradiction|]. exists e. unfold solve, rf_new in H. apply bind_ok in H as (rf & H & _).
  cbn [map] in H. destruct (negb _); [discriminate|]. destruct (existsb _ sv); [discriminate|].
  destruct (Nat.ltb _ _); [discriminate|]. apply bind_ok in H as (ini & Hi & H). apply bind_ok in H as (v & Hv & H).
  apply idx_ok in Hv. destruct ini as [|v0 ini]; [discriminate|]. cbn in Hv. injection Hv as ->.
  destruct v as [| |s]; try discriminate. exists s. split; [reflexivity|]. exists ini.
  rewrite probe_context_eq in Hi. eapply outcome_intro; [exact Hi|discriminate].
Qed.

(** ** C37: overdetermined systems try every choice of equations *)
Theorem c37_choices_enumerated (ev : AST N -> Ctx N -> res EvalError (list V)) es c sv rf :
  rf_new ev es c sv = Ok rf ->
  (forall l, In l (rf_combinations rf) <-> is_choice (List.length sv) (List.length es) l) /\
  StronglySorted lex (rf_combinations rf) /\ NoDup (rf_combinations rf).
Proof.
  intros H. apply rf_new_ok in H as (_ & _ & _ & Hl & ->). cbn [rf_combinations].
  split; [intros l; now apply comb_choice|].
  assert (Hs : StronglySorted lex (if Nat.ltb (List.length sv) (List.length es) then combs (seq 0 (List.length es)) (List.length sv)
                else [seq 0 (List.length es)])).
  { destruct (Nat.ltb _ _); [apply combs_sorted|repeat constructor]. }
  split; [exact Hs|]. eapply SSorted_NoDup; [apply lex_irrefl|exact Hs].
Qed.

(** Solving with the equations picked by [l] and checking the others yields
    [vs]. *)
Definition tried (f : nat) (eqs : list equation) (sv : list str) (c : Ctx N) (l : list nat) (vs : list V) : Prop :=
  exists search check, split_into eqs search check /\
    Forall2 (fun j e => nth_error eqs j = Some e) l search /\
    attempt (eval f) (map (fun i => AOp OSub (fst i) (snd i)) search)
                     (map (fun i => AOp OSub (fst i) (snd i)) check) sv c = Ok vs.

Lemma lex_asym l l' : lex l l' -> ~ lex l' l.
Proof. induction 1; intros H'; inversion H'; subst; auto; lia. Qed.

Lemma Forall2_nth_map {X Y} (g : X -> Y) (l : list X) js ys xs :
  Forall2 (fun j y => nth_error (map g l) j = Some y) js ys -> ys = map g xs ->
  (forall x y, g x = g y -> x = y) ->
  Forall2 (fun j x => nth_error l j = Some x) js xs.
Proof.
  intros H E Hinj. revert xs E. induction H as [|j y js ys Hy H IH]; intros [|x xs] E; try discriminate; constructor.
  - cbn in E. injection E as E1 E2. rewrite nth_error_map in Hy. destruct (nth_error l j) as [x'|]; [|discriminate].
    cbn in Hy. f_equal. apply Hinj. congruence.
  - apply IH. now injection E.
Qed.

Theorem c37_first_success eqs sv c vs : outcome (AEq eqs sv) c (Ok vs) ->
  exists f0, forall f, f0 <= f ->
  (vs = [] /\ forall l, is_choice (List.length sv) (List.length eqs) l -> tried f eqs sv c l []) \/
  (vs <> [] /\ exists l, is_choice (List.length sv) (List.length eqs) l /\ tried f eqs sv c l vs /\
     forall l', is_choice (List.length sv) (List.length eqs) l' -> lex l' l -> tried f eqs sv c l' []).
Proof.
  intros H. apply c39_solve_is_eq in H as [_ [f0 H]]. exists f0. intros f Hf. specialize (H f Hf).
  apply solve_ok_inv in H as (Hne & Hd & Hl & H). cbn zeta in H.
  set (es := map (fun i => AOp OSub (fst i) (snd i)) eqs) in *.
  assert (Hles : List.length es = List.length eqs) by apply map_length.
  set (cs := if Nat.ltb (List.length sv) (List.length es) then combs (seq 0 (List.length es)) (List.length sv)
             else [seq 0 (List.length es)]) in *.
  assert (Hcs : forall l, In l cs <-> is_choice (List.length sv) (List.length eqs) l).
  { intros l. rewrite <- Hles. apply comb_choice. lia. }
  assert (Hs : StronglySorted lex cs).
  { unfold cs. destruct (Nat.ltb _ _); [apply combs_sorted|repeat constructor]. }
  assert (Ht : forall l s k r, In l cs -> split_exprs es l = Ok (s, k) -> attempt (eval f) s k sv c = Ok r -> tried f eqs sv c l r).
  { intros l s k r Hin Hsp Ha. apply Hcs in Hin as (I1 & I2 & I3). rewrite <- Hles in I3.
    destruct (split_exprs_ok es l I2 I3) as (s' & k' & Hsp' & Hinto & Hnth). rewrite Hsp in Hsp'. injection Hsp' as <- <-.
    apply split_into_map in Hinto as (se & ke & Hinto & -> & ->). exists se, ke. split; [exact Hinto|].
    split; [|exact Ha]. eapply Forall2_nth_map; [exact Hnth|reflexivity|].
    intros [a1 b1] [a2 b2]; cbn. congruence. }
  apply comb_loop_first in H as [(-> & Hall)|(Hnv & pre & i & post & s & k & Epre & Hsp & Ha & Hpre)].
  - left. split; [reflexivity|]. intros l Hc. apply Hcs in Hc. destruct (Hall l Hc) as (s & k & Hsp & Ha). eauto.
  - right. split; [exact Hnv|]. exists i.
    assert (Hi : In i cs) by (rewrite Epre, in_app_iff; cbn; auto).
    split; [now apply Hcs|]. split; [eauto|]. intros l' Hc Hlex. apply Hcs in Hc.
    assert (Hin : In l' pre).
    { rewrite Epre in Hc. apply in_app_iff in Hc as [Hc|[->|Hc]]; [exact Hc| |].
      - exfalso. eapply lex_irrefl; eauto.
      - exfalso. rewrite Epre in Hs. clear -Hs Hc Hlex.
        assert (Hsuf : StronglySorted lex (i :: post)).
        { induction pre as [|x pre IH]; [exact Hs|]. apply IH. now inversion Hs. }
        inversion Hsuf as [|? ? _ Hf]; subst. rewrite Forall_forall in Hf. exact (lex_asym _ _ (Hf _ Hc) Hlex). }
    destruct (Hpre l' Hin) as (s' & k' & Hsp' & Ha'). eapply Ht; eauto.
Qed.
Lemma found_no_matrix (ev : AST N -> Ctx N -> res EvalError (list V)) js (Hst : forall j, In j js -> fine (nof_Z j))
  search check sv c found : ~ defined c sv -> start_loop ev js search check sv c [] = Ok found ->
  forall v, In v found -> is_matrix v = false.
Proof.
  intros Hd Hfound. apply (start_loop_inv _ _ _ _ _ c) in Hfound.
  - intros v Hv. rewrite Forall_forall in Hfound. destruct (Hfound v Hv) as (xs & -> & _).
    destruct xs as [|x [|y xs]]; reflexivity.
  - split; [|reflexivity]. apply drop_none. intros v Hv Hin. apply Hd. exists (var_name v), v. auto.
  - exact Hst.
  - constructor.
Qed.
End Generic.

Section Binary64.
Variable lm : Libm.
Local Instance NF : Num := F64 lm.
Context {En : Env}.
Notation V := (Value NF).
Notation equation := (AST NF * AST NF)%type.

Lemma starts_fine : forall j, In j starts -> @fine NF (nof_Z j).
Proof.
  assert (H : forallb (fun j => negb (fis_inf (f_of_Z j) || fis_nan (f_of_Z j))) starts = true)
    by (vm_compute; reflexivity).
  intros j Hj. rewrite forallb_forall in H. specialize (H j Hj). apply negb_true_iff in H. exact H.
Qed.

Lemma found_point eqs sv c vs v : outcome (AEq eqs sv) c (Ok vs) -> In v vs ->
  exists xs, v = as_solution xs /\ List.length xs = List.length sv /\ Forall fine xs /\ near_solution eqs sv c xs.
Proof.
  intros H Hv. apply outcome_solve in H as [f H].
  destruct (solve_found _ starts_fine _ _ _ _ _ H Hv) as (search & check & Hsp & Hl & xs & -> & Hx & Hfine & rs & ks & Hhit).
  exists xs. repeat split; auto. destruct Hhit as (H1 & H2 & H3 & H4).
  assert (Hm : forall es rs, Forall2 (ev_misses (eval f) (set_nums c sv xs)) (map (fun i => AOp OSub (fst i) (snd i)) es) rs ->
     Forall2 (misses_by (set_nums c sv xs)) es rs).
  { clear. induction es as [|e es IH]; intros rs H; inversion H as [|? s ? rs' Hs Hr]; subst; constructor; auto.
    destruct Hs as [rest Hs]. exists rest. eapply outcome_intro; [exact Hs|discriminate]. }
  exists search, check, rs, ks. repeat split; auto.
  - unfold small in H2. now apply andb_true_iff in H2 as [_ H2].
  - destruct H4 as [H4|H4]; [left; destruct check; [reflexivity|discriminate]|right].
    unfold small in H4. now apply andb_true_iff in H4 as [_ H4].
Qed.

(** ** C32: solutions satisfy the equations *)
Theorem c32_solutions_satisfy (eqs : list equation) sv c vs v :
  outcome (AEq eqs sv) c (Ok vs) -> In v vs ->
  exists xs, v = as_solution xs /\ List.length xs = List.length sv /\ near_solution eqs sv c xs.
Proof. intros H Hv. destruct (found_point _ _ _ _ _ H Hv) as (xs & H1 & H2 & _ & H3). eauto. Qed.

Lemma step_h_facts : fvalid (@step_h NF En) = true /\ fis_finite (@step_h NF En) = true /\ 
  fltb (fsqrt (fmul (@step_h NF En) (@step_h NF En))) (@step_h NF En) = false /\ fis_finite (fmul (@step_h NF En) (@step_h NF En)) = true /\
  fltb (@step_h NF En) f0 = false.
Proof. unfold step_h, PREC. destruct high_prec; vm_compute; auto. Qed.

(** Every single equation - solved or checked - is missed by less than
    10^-PREC.  ([fvalid s]: [s] is a number of the format, as every [f64] of
    the program is.) *)
Theorem c32_every_equation (eqs : list equation) sv c vs v :
  outcome (AEq eqs sv) c (Ok vs) -> In v vs ->
  exists xs, v = as_solution xs /\ List.length xs = List.length sv /\
   ((forall e s, In e eqs -> misses_by (set_nums c sv xs) e s -> fvalid s = true) ->
    forall e, In e eqs -> exists s, misses_by (set_nums c sv xs) e s /\ fltb (fabs s) (@step_h NF En) = true).
Proof.
  intros H Hv. destruct (c32_solutions_satisfy _ _ _ _ _ H Hv) as (xs & -> & Hl & search & check & rs & ks & Hsp & _ & H1 & H2 & H3 & H4).
  exists xs. split; [reflexivity|]. split; [exact Hl|]. intros Hval e He.
  destruct step_h_facts as (S1 & S2 & S3 & S4 & S5).
  assert (S0 : (0 <= fR (@step_h NF En))%R) by (apply not_negative_R; auto).
  assert (Hgrp : forall es ss, (forall x, In x es -> In x eqs) -> Forall2 (misses_by (set_nums c sv xs)) es ss ->
     fltb (@length2 NF ss) (@step_h NF En) = true -> In e es ->
     exists s, misses_by (set_nums c sv xs) e s /\ fltb (fabs s) (@step_h NF En) = true).
  { intros es ss Hin HF Hlt Hie.
    assert (Hs : exists s, In s ss /\ misses_by (set_nums c sv xs) e s).
    { clear -HF Hie. induction HF as [|x s l l' Hx HF IH]; [destruct Hie|].
      destruct Hie as [->|Hie]; [exists s; split; [now left|exact Hx]|].
      destruct (IH Hie) as (s' & Hs' & Hm). exists s'. split; [now right|exact Hm]. }
    destruct Hs as (s & Hs & Hm). exists s. split; [exact Hm|].
    refine (norm_component lm _ ss s S1 S2 S0 S3 S4 _ Hlt Hs).
    assert (HF' : Forall (fun r : f64 => fvalid r = true) ss); [|exact HF'].
    clear -HF Hval Hin. induction HF as [|x s l l' Hx HF IH]; constructor.
    - apply (Hval x s); [apply Hin; now left|exact Hx].
    - apply IH. intros y Hy; apply Hin; now right. }
  pose proof (split_into_sub _ _ _ Hsp) as Hsub.
  destruct (split_into_In _ _ _ _ Hsp He) as [Hs|Hk].
  - apply (Hgrp search rs); [apply Hsub|exact H1|exact H2|exact Hs].
  - apply (Hgrp check ks); [apply Hsub|exact H3| |exact Hk].
    destruct H4 as [->|H4]; [destruct Hk|exact H4].
Qed.

(** ** C34: form of solutions *)
Theorem c34_form (eqs : list equation) sv c vs v :
  outcome (AEq eqs sv) c (Ok vs) -> In v vs ->
  (List.length sv = 1 -> exists x, v = Scalar x /\ fis_finite x = true) /\
  (List.length sv <> 1 -> exists xs, v = Vector xs /\ List.length xs = List.length sv /\
                                     Forall (fun x : f64 => fis_finite x = true) xs).
Proof.
  intros H Hv. destruct (found_point _ _ _ _ _ H Hv) as (xs & -> & Hl & Hf & _).
  assert (Hff : Forall (fun x : f64 => fis_finite x = true) xs).
  { eapply Forall_impl; [|exact Hf]. intros x Hx. unfold fine in Hx. cbn in Hx. destruct x; cbn in *; congruence. }
  split; intros Hn.
  - destruct xs as [|x [|y xs]]; cbn in Hl; try lia. exists x. split; [reflexivity|]. now inversion Hff.
  - exists xs. split; [|auto]. destruct xs as [|x [|y xs]]; try reflexivity. cbn in Hl; lia.
Qed.

(** ** C33: number, order and distinctness of solutions *)
Lemma fle_trans (x y z : f64) : fis_nan y = false -> fltb y x = false -> fltb z y = false -> fltb z x = false.
Proof.
  unfold fltb, SFltb, fis_nan.
  destruct x as [sx|sx| |sx mx ex], y as [sy|sy| |sy my ey], z as [sz|sz| |sz mz ez]; try discriminate; intros _;
    try (destruct sx); try (destruct sy); try (destruct sz); cbn; try discriminate; try reflexivity.
  all: intros H1 H2; rewrite ?Pos.compare_cont_spec in *; unfold Pos.switch_Eq in *.
  all: repeat match goal with
   | |- context [Z.compare ?a ?b] => destruct (Z.compare_spec a b)
   | H : context [Z.compare ?a ?b] |- _ => destruct (Z.compare_spec a b)
   | |- context [Pos.compare ?a ?b] => destruct (Pos.compare_spec a b)
   | H : context [Pos.compare ?a ?b] |- _ => destruct (Pos.compare_spec a b)
   end; cbn in *; try discriminate; try reflexivity; subst; try lia.
Qed.

(** What was found from all starting values for the first successful choice of
    equations, and how the answer is selected from it. *)
Theorem c33_selection (eqs : list equation) sv c vs :
  outcome (AEq eqs sv) c (Ok vs) ->
  vs = [] \/
  exists f search check found reps,
    split_into eqs search check /\ List.length search = List.length sv /\
    start_loop (eval f) starts (map (fun i => AOp OSub (fst i) (snd i)) search)
               (map (fun i => AOp OSub (fst i) (snd i)) check) sv c [] = Ok found /\
    representatives found reps /\ selection reps vs.
Proof.
  intros H. destruct (c37_first_success _ _ _ _ H) as [f0 Hf]. specialize (Hf f0 (le_n _)).
  destruct Hf as [[-> _]|(Hne & l & Hc & (search & check & Hsp & Hn & Ha) & _)]; [now left|right].
  apply attempt_inv in Ha as (found & Hfound & Hcl).
  exists f0, search, check, found, (dedupe found). split; [exact Hsp|]. split.
  { rewrite <- (Forall2_length Hn). apply Hc. }
  split; [exact Hfound|].
  apply (@clean_results_selection NF En fltb_asym fle_trans); [|exact Hcl].
  apply c35_ok_only_if in H as (_ & Hd & _).
  exact (found_no_matrix _ starts starts_fine _ _ sv c found Hd Hfound).
Qed.

Lemma list_eqb_sym {A} (e : A -> A -> bool) : (forall x y, e x y = e y x) -> forall a b, list_eqb e a b = list_eqb e b a.
Proof. intros He. induction a as [|x a IH]; intros [|y b]; cbn; try reflexivity. now rewrite He, IH. Qed.
Lemma same_rounded_sym (v w : V) : same_rounded v w = same_rounded w v.
Proof.
  unfold same_rounded. generalize (value_round (PREC - 2) v), (value_round (PREC - 2) w).
  intros [m|x|x] [m'|y|y]; cbn; try reflexivity.
  - apply list_eqb_sym. apply list_eqb_sym. apply feqb_sym.
  - apply list_eqb_sym. apply feqb_sym.
  - apply feqb_sym.
Qed.

Theorem c33_at_most_ten_distinct (eqs : list equation) sv c vs :
  outcome (AEq eqs sv) c (Ok vs) ->
  List.length vs <= 10 /\
  forall i j v w, i <> j -> nth_error vs i = Some v -> nth_error vs j = Some w -> same_rounded v w = false.
Proof.
  intros H. destruct (c33_selection _ _ _ _ H) as [->|(f & search & check & found & reps & _ & _ & _ & Hr & Hs)].
  { split; [cbn; lia|]. intros [|i] j v w _ Hv; discriminate. }
  apply representatives_distinct in Hr.
  assert (Hrp : ForallOrdPairs (fun v w => same_rounded v w = false) reps).
  { clear -Hr. induction Hr as [|x l H IH Hx]; constructor; auto.
    eapply Forall_impl; [|exact Hx]. intros y Hy. cbn in Hy. now rewrite same_rounded_sym. }
  assert (Hperm : forall l l', Permutation l l' -> ForallOrdPairs (fun v w => same_rounded v w = false) l ->
     ForallOrdPairs (fun v w => same_rounded v w = false) l').
  { clear. intros l l' Hp. induction Hp as [|x l l' Hp IH|x y l|l1 l2 l3 H1 IH1 H2 IH2]; intros H.
    - constructor.
    - inversion H; subst. constructor; auto. eapply Permutation_Forall; eauto.
    - inversion H as [|? ? F1 H']; subst. inversion H' as [|? ? F2 H'']; subst. inversion F1; subst.
      constructor; [constructor; [now rewrite same_rounded_sym|assumption]|constructor; auto].
    - auto. }
  assert (Happ : forall l l', ForallOrdPairs (fun v w => same_rounded v w = false) (l ++ l') ->
     ForallOrdPairs (fun v w => same_rounded v w = false) l).
  { clear. induction l as [|x l IH]; intros l' H; [constructor|]. inversion H; subst. constructor; [|eauto].
    rewrite Forall_app in *. tauto. }
  assert (Hvs : List.length vs <= 10 /\ ForallOrdPairs (fun v w => same_rounded v w = false) vs).
  { destruct Hs as [(Hl & ->)|(Hl & Hl2 & rest & Hp & _)].
    - split; [exact Hl|exact Hrp].
    - split; [lia|]. eapply Happ. eapply Hperm; [symmetry; exact Hp|exact Hrp]. }
  destruct Hvs as [Hl Hvs]. split; [exact Hl|].
  assert (Hnth : forall i j v w, i < j -> nth_error vs i = Some v -> nth_error vs j = Some w -> same_rounded v w = false).
  { clear -Hvs. induction Hvs as [|x l Hx H IH]; intros [|i] [|j] v w Hij Hv Hw; cbn in *; try discriminate; try lia.
    - injection Hv as <-. apply nth_error_In in Hw. rewrite Forall_forall in Hx. auto.
    - apply (IH i j); auto. lia. }
  intros i j v w Hij Hv Hw. destruct (Nat.lt_ge_cases i j) as [Hlt|Hge].
  - eauto.
  - rewrite same_rounded_sym. apply (Hnth j i); auto. lia.
Qed.

(** Finding: without search variables the answer to a true system is the empty
    vector (and printing or indexing it panics). *)
Theorem c34_no_variables (eqs : list equation) c vs :
  outcome (AEq eqs []) c (Ok vs) -> vs = [] \/ vs = [Vector []].
Proof.
  intros H. destruct vs as [|v vs]; [now left|right].
  assert (Hall : forall w, In w (v :: vs) -> w = Vector []).
  { intros w Hw. destruct (c34_form _ _ _ _ w H Hw) as [_ H2].
    destruct H2 as (xs & -> & Hl & _); [discriminate|]. destruct xs; [reflexivity|discriminate]. }
  destruct (c33_at_most_ten_distinct _ _ _ _ H) as [_ Hd].
  rewrite (Hall v (or_introl eq_refl)) in *. destruct vs as [|w vs]; [reflexivity|].
  exfalso. rewrite (Hall w (or_intror (or_introl eq_refl))) in *.
  specialize (Hd 0 1 _ _ ltac:(discriminate) eq_refl eq_refl). discriminate.
Qed.
End Binary64.

Module Examples.
Local Existing Instance NT.
Local Existing Instance ET.
Definition ctx0 : Ctx NT := mkCtx [] [].
Definition X := lit "x". Definition Y := lit "y".
Definition x1000 : AST NT := AOp OAdd (AVar X) (AScalar (num 1000)).
Definition y1000 : AST NT := AOp OAdd (AVar Y) (AScalar (num 1000)).
Definition k (z : Z) : AST NT := AScalar (num z).
(** Three equations, two variables: x+1000=0, x+1000=0, y+1000=0. *)
Definition system : list (AST NT * AST NT) := [(x1000, k 0); (x1000, k 0); (y1000, k 0)].

Example solved : outcome (AEq system [X; Y]) ctx0 (Ok [ve [-1000; -1000]%Z]).
Proof. apply (outcome_intro 20); [apply res_same_ok; vm_compute; reflexivity|discriminate]. Qed.
Example solved_satisfies : exists xs, ve [-1000; -1000]%Z = as_solution xs /\ List.length xs = 2 /\ near_solution system [X; Y] ctx0 xs.
Proof. apply (c32_solutions_satisfy toy system [X; Y] ctx0 _ _ solved). now left. Qed.
Example solved_form : exists xs, ve [-1000; -1000]%Z = Vector xs /\ List.length xs = 2 /\ Forall (fun x : f64 => fis_finite x = true) xs.
Proof. apply (c34_form toy system [X; Y] ctx0 _ _ solved); [now left|discriminate]. Qed.
Example solved_distinct : List.length [ve [-1000; -1000]%Z] <= 10.
Proof. apply (c33_at_most_ten_distinct toy system [X; Y] ctx0 _ solved). Qed.
Example solved_by_solve : exists f0, forall f, f0 <= f -> solve (eval f) system ctx0 [X; Y] = Ok [ve [-1000; -1000]%Z].
Proof. apply c39_solve_is_eq. exact solved. Qed.
(** The choices for 2 of 3 equations. *)
Example choices3 : rmap (@rf_combinations NT) (rf_new (eval 20) (map (fun i => AOp OSub (fst i) (snd i)) system) ctx0 [X; Y])
  = Ok [[0; 1]; [0; 2]; [1; 2]].
Proof. vm_compute. reflexivity. Qed.

(** Errors in their order of precedence. *)
Definition ctxx : Ctx NT := mkCtx [mkVar X [sc 1]] [].
Example err_none : outcome (AEq [] [X]) ctxx (Err NothingToDoEq).
Proof. apply c35_no_equation. Qed.
Example err_defined : outcome (AEq [(x1000, k 0)] [X; Y]) ctxx (Err SearchVarsInVars).
Proof. apply c35_defined_variable; [discriminate|]. exists X, (mkVar X [sc 1]). cbn; auto. Qed.
Lemma not_defined0 sv : ~ defined ctx0 sv. Proof. intros (n & v & _ & [] & _). Qed.
Example err_under : outcome (AEq [(x1000, k 0)] [X; Y]) ctx0 (Err UnderdeterminedSystem).
Proof. apply c35_underdetermined; [discriminate|apply not_defined0|cbn; lia]. Qed.
Definition vec12 : AST NT := ast_from_value (ve [1; 2]%Z).
Example err_vector : outcome (AEq [(vec12, vec12); (x1000, k 0)] [X]) ctx0 (Err VectorInEq).
Proof.
  apply (c35_vector vec12 vec12 _ [X] ctx0 (ns [0; 0]%Z) []); [apply not_defined0|cbn; lia|].
  apply (outcome_intro 9); [apply res_same_ok; vm_compute; reflexivity|discriminate].
Qed.
Definition mat1 : AST NT := ast_from_value (ma [[1]]%Z).
Example err_matrix : outcome (AEq [(mat1, mat1)] [X]) ctx0 (Err MatrixInEq).
Proof.
  apply (c35_matrix mat1 mat1 _ [X] ctx0 [ns [0]%Z] []); [apply not_defined0|cbn; lia|].
  apply (outcome_intro 9); [apply res_same_ok; vm_compute; reflexivity|discriminate].
Qed.
Example err_eval : outcome (AEq [(AVar (lit "a"), k 0)] [X]) ctx0 (Err (NoVariable (lit "a"))).
Proof.
  apply c35_evaluation_error; [apply not_defined0|cbn; lia|].
  apply (outcome_intro 9); [apply err_of_eq; vm_compute; reflexivity|discriminate].
Qed.
(** Finding: only the first equation is tried out; a vector in a later one
    makes the program panic. *)
Example vector_in_second_panics : outcome (AEq [(x1000, k 0); (vec12, vec12)] [X]) ctx0 Panic.
Proof. apply (outcome_intro 20); [apply is_panic_eq; vm_compute; reflexivity|discriminate]. Qed.
(** Finding: so does an equation without values. *)
Definition ctxe : Ctx NT := mkCtx [mkVar (lit "a") []] [].
Example no_value_panics : outcome (AEq [(AVar (lit "a"), k 0)] [X]) ctxe Panic.
Proof.
  apply c35_no_value_panics.
  - intros (n & v & [<-|[]] & [<-|[]] & E). discriminate.
  - cbn; lia.
  - apply (outcome_intro 9); [apply res_same_ok; vm_compute; reflexivity|discriminate].
Qed.
(** Finding: only the first value of each equation counts: [{x+1000, 1} = 0] is
    "solved" by x = -1000 although its second reading 1 = 0 is false. *)
Definition two : AST NT := AList [x1000; k 1].
Example second_value_ignored : outcome (AEq [(two, k 0); (two, k 0)] [X; Y]) ctx0 (Ok [ve [-1000; -1000]%Z]).
Proof. apply (outcome_intro 20); [apply res_same_ok; vm_compute; reflexivity|discriminate]. Qed.
End Examples.
