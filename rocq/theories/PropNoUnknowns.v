(** * PropNoUnknowns: C86 - [eq(...)] without unknowns is a test of its equations. *)
From Coq Require Import List NArith ZArith Bool Arith Lia String.
From Verif Require Import Base BaseFacts F64 Num Types Maths Helpers Parser Eval SpecEval EvalFuel EvalProofs EvalTotal
  CalcSpec CalcProofs SolveSpec SolveProofs SearchSpec PropSolve SolveForward Search PropSearch PropFaults Toy PropParser.
Import ListNotations.
Local Open Scope string_scope.
Local Open Scope list_scope.

Section Binary64.
Variable lm : Libm.
Local Instance NF : Num := F64 lm.
Context {En : Env}.
Notation V := (Value NF).
Notation equation := (AST NF * AST NF)%type.
Notation sub i := (AOp OSub (fst i) (snd i)).

Lemma small_nil : @small NF En [] = true.
Proof. unfold small, norm, eps. cbn [fold_left]. unfold PREC. destruct high_prec; vm_compute; reflexivity. Qed.
Lemma tiny_small (ks : list (@T NF)) : @small NF En ks = tiny ks.
Proof. reflexivity. Qed.

Section Ev.
Variable ev : AST NF -> Ctx NF -> res EvalError (list V).
Variables (es : list (AST NF)) (c : Ctx NF).
Lemma newton_none : @newton NF En ev [] es [] c =
  (match mapM (eval_scalar ev c) es with
   | Ok [] => Ok (FinishedX []) | Ok cr => if small cr then Ok (FinishedX []) else Err ExpressionCheckFailed
   | Err e => Err e | Panic => Panic | Fuel => Fuel end, c).
Proof. unfold newton. cbn [mapM add_all remove_all fold_left]. rewrite small_nil. destruct (mapM _ es) as [[|k ks]|e| |]; try reflexivity. now destruct (small (k :: ks)). Qed.
(** No start: nothing is found; otherwise the same thing happens at each. *)
Lemma start_loop_none : forall js acc, @start_loop NF En ev js [] es [] c acc =
  match js with [] => Ok acc | _ =>
  match mapM (eval_scalar ev c) es with
  | Ok cr => Ok (acc ++ if (match cr with [] => true | _ => small cr end) then repeat (Vector []) (List.length js) else [])
  | Err NaNOrInf | Err ExpressionCheckFailed | Err InfiniteSolutions => Ok acc
  | Err e => Err e | Panic => Panic | Fuel => Fuel end end.
Proof.
  induction js as [|j js IH]; intros acc; [reflexivity|]. cbn [start_loop map].
  assert (E : forall n, @newton_loop NF En ev (S n) [] es [] c = (let '(r, c) := @newton NF En ev [] es [] c in
      match r with
      | Ok (NextX x') => newton_loop ev n [] es x' c
      | Ok (FinishedX x') => do rs <- mapM first_scalar x'; match rs with [s] => Ok (Some (Scalar s), false, c) | _ => Ok (Some (Vector rs), false, c) end
      | Err InfiniteSolutions => Ok (None, true, c) | Err NaNOrInf => Ok (None, false, c) | Err ExpressionCheckFailed => Ok (None, false, c)
      | Err e => Err e | Panic => Panic | Fuel => Fuel end)) by reflexivity.
  change 1000 with (S 999). rewrite E, newton_none. clear E.
  destruct (mapM (eval_scalar ev c) es) as [[|k ks]|e| |]; cbn [bind mapM]; try reflexivity.
  - rewrite IH. destruct js; cbn [List.length repeat]; [reflexivity|]. now rewrite <- app_assoc.
  - destruct (small (k :: ks)) eqn:Es; cbn [bind mapM].
    + rewrite IH. destruct js; cbn [List.length repeat]; [reflexivity|]. now rewrite <- app_assoc.
    + rewrite IH. destruct js; [now rewrite app_nil_r|reflexivity].
  - destruct e; cbn [bind]; try reflexivity; rewrite IH; destruct js; reflexivity.
Qed.
Lemma clean_none n : n <> 0 -> clean_results (repeat (Vector [] : V) n) = Ok [Vector []].
Proof.
  intros Hn. assert (D : dedupe (repeat (Vector [] : V) n) = [Vector []]).
  { unfold dedupe. destruct n as [|n]; [congruence|]. cbn [repeat fold_left existsb app].
    induction n as [|n IH]; [reflexivity|]. cbn [repeat fold_left existsb]. 
    assert (E : @value_eqb NF (value_round (PREC - 2) (Vector [])) (value_round (PREC - 2) (Vector [])) = true) by reflexivity.
    rewrite E. cbn [orb]. apply IH. discriminate. }
  unfold clean_results. rewrite D. destruct n; [congruence|]. reflexivity.
Qed.
Lemma comb_none : @comb_loop NF En ev [[]] es c [] =
  match mapM (eval_scalar ev c) es with
  | Ok cr => Ok (if (match cr with [] => true | _ => small cr end) then [Vector []] else [])
  | Err NaNOrInf | Err ExpressionCheckFailed | Err InfiniteSolutions => Ok []
  | Err e => Err e | Panic => Panic | Fuel => Fuel end.
Proof.
  cbn [comb_loop]. unfold split_exprs. cbn [foldM bind fst snd]. rewrite start_loop_none.
  assert (Hs : exists n, List.length starts = S n /\ starts <> []) by (exists 1999; split; [unfold starts; now rewrite map_length, seq_length|unfold starts; discriminate]).
  destruct Hs as (n & Hl & Hn). rewrite Hl. destruct starts as [|j js]; [congruence|]. clear Hl Hn.
  destruct (mapM (eval_scalar ev c) es) as [cr|e| |]; try reflexivity.
  - cbn [app bind]. destruct (match cr with [] => true | _ => small cr end).
    + rewrite clean_none by discriminate; reflexivity.
    + reflexivity.
  - destruct e; reflexivity.
Qed.
Lemma solve_none e0 es' : es = e0 :: es' -> forallb is_operation es = true -> (do rf <- @rf_new NF ev es c []; find_roots ev rf) =
  do initial <- ev e0 c; do v <- idx initial 0;
  match v with Vector _ => Err VectorInEq | Matrix _ => Err MatrixInEq | Scalar _ => comb_loop ev [[]] es c [] end.
Proof.
  intros -> Ho. unfold rf_new. rewrite Ho. cbn [negb existsb List.length Nat.ltb Nat.leb fold_left seq].
  destruct (ev e0 c) as [vs|e| |]; try reflexivity. cbn [bind]. destruct (idx vs 0) as [v|e| |]; try reflexivity. cbn [bind].
  destruct v; reflexivity.
Qed.
End Ev.

(** What an equation without unknowns leads to at fuel [f]. *)
Definition tested (r : res EvalError (list (@T NF))) : res EvalError (list V) :=
  match r with Ok cr => Ok (if tiny cr then [Vector []] else []) | Err e => Err e | Panic => Panic | Fuel => Fuel end.
Lemma not_internal_scalars f c (es : list (AST NF)) e : mapM (eval_scalar (eval f) c) es = Err e -> ~ internal e.
Proof.
  induction es as [|a es IH]; [discriminate|]. cbn [mapM]. intros H. apply bind_err in H as [H|(x & _ & H)].
  - unfold eval_scalar in H. apply bind_err in H as [H|(vs & _ & H)]; [eapply eval_not_internal; exact H|].
    apply bind_err in H as [H|(v & _ & H)]; [unfold idx in H; destruct (nth_error vs 0); discriminate|destruct (get_scalar v); discriminate].
  - apply bind_err in H as [H|(y & _ & H)]; [now apply IH|discriminate].
Qed.
Lemma test_at f (eqs : list equation) c s rest e0 eqs' : eqs = e0 :: eqs' -> eval f (sub e0) c = Ok (Scalar s :: rest) ->
  solve (eval f) eqs c [] = tested (mapM (eval_scalar (eval f) c) (map (fun i => sub i) eqs)).
Proof.
  intros -> H. unfold solve. rewrite (solve_none _ _ _ (sub e0) (map (fun i => sub i) eqs')); [|reflexivity|].
  - rewrite H. cbn [bind idx nth_error]. rewrite comb_none. set (r := mapM _ _). assert (Hr : r = mapM (eval_scalar (eval f) c) (map (fun i => sub i) (e0 :: eqs'))) by reflexivity.
    clearbody r. destruct r as [cr|e| |]; try reflexivity.
    + destruct cr as [|k ks]; [|reflexivity]. symmetry in Hr. apply mapM_length in Hr. discriminate.
    + symmetry in Hr. apply not_internal_scalars in Hr. destruct e; try reflexivity; exfalso; apply Hr; unfold internal; auto.
  - apply forallb_forall. intros x Hx. apply in_map_iff in Hx as (y & <- & _). reflexivity.
Qed.

Lemma test_outcome (eqs : list equation) c ks : eqs <> [] -> Forall2 (misses_by c) eqs ks ->
  exists f, solve (eval f) eqs c [] = Ok (if tiny ks then [Vector []] else []).
Proof.
  intros Hne H. destruct (residuals_lim [] c eqs [] ks H) as [f0 H0]. exists f0. specialize (H0 f0 (le_n _)).
  destruct eqs as [|e0 eqs']; [congruence|]. inversion H0 as [|? s ? ks' [rest Hs] Hl]; subst.
  rewrite (test_at f0 _ c s rest e0 eqs' eq_refl Hs).
  apply (residuals_mapM (eval f0) [] c) in H0. change (set_nums c [] []) with c in H0. rewrite H0. reflexivity.
Qed.

(** ** C86 *)
(** If all equations hold (up to 10^-PREC), the answer is one value, the vector
    without components; otherwise there is no answer. *)
Theorem c86_holds (eqs : list equation) c ks : eqs <> [] -> Forall2 (misses_by c) eqs ks -> tiny ks = true ->
  outcome (AEq eqs []) c (Ok [Vector []]).
Proof. intros Hne H Ht. destruct (test_outcome eqs c ks Hne H) as [f Hf]. rewrite Ht in Hf. apply (solve_outcome _ _ _ _ f); [exact Hf|discriminate]. Qed.
Theorem c86_fails (eqs : list equation) c ks : eqs <> [] -> Forall2 (misses_by c) eqs ks -> tiny ks = false ->
  outcome (AEq eqs []) c (Ok []).
Proof. intros Hne H Ht. destruct (test_outcome eqs c ks Hne H) as [f Hf]. rewrite Ht in Hf. apply (solve_outcome _ _ _ _ f); [exact Hf|discriminate]. Qed.
(** These are the only answers. *)
Theorem c86_only (eqs : list equation) c vs : outcome (AEq eqs []) c (Ok vs) ->
  eqs <> [] /\ exists ks, Forall2 (misses_by c) eqs ks /\ vs = (if tiny ks then [Vector []] else []).
Proof.
  intros H. destruct (c35_ok_only_if _ _ _ _ H) as (Hne & _ & _ & e & s & He & (rest & H0 & f0 & Hs)). split; [exact Hne|].
  destruct eqs as [|e0 eqs']; [discriminate|]. cbn in He. injection He as ->.
  apply c39_solve_is_eq in H as [_ [f Hf]]. set (g := max f f0). specialize (Hf g (Nat.le_max_l _ _)).
  rewrite (test_at g _ c s rest e eqs' eq_refl (Hs g (Nat.le_max_r _ _))) in Hf.
  destruct (mapM _ _) as [ks|x| |] eqn:Hk; try discriminate. cbn in Hf. injection Hf as <-. exists ks. split; [|reflexivity].
  change c with (set_nums c [] []) in Hk. apply (residuals_mapM (eval g) [] c (e :: eqs') []) in Hk.
  eapply Forall2_impl; [|exact Hk]. intros a b Hab. eapply miss_outcome; exact Hab.
Qed.
Lemma later_at (pre post : list equation) e ks c r : Forall2 (misses_by c) pre ks -> pre <> [] ->
  outcome (AOp OSub (fst e) (snd e)) c r ->
  exists f, solve (eval f) (pre ++ e :: post) c [] =
    tested (do k <- (do vs <- r; do v <- idx vs 0; unwrap (get_scalar v)); do l <- mapM (eval_scalar (eval f) c) (map (fun i => sub i) post); Ok (ks ++ k :: l)).
Proof.
  intros Hp Hne [Hr [f1 H1]]. destruct (residuals_lim [] c pre [] ks Hp) as [f3 H3].
  set (g := max f1 f3). specialize (H1 g (Nat.le_max_l _ _)). specialize (H3 g (Nat.le_max_r _ _)). exists g.
  destruct pre as [|e0 pre']; [congruence|]. inversion H3 as [|? s ? ks' [rest H2] Hp']; subst ks. cbn [app].
  rewrite (test_at g _ c s rest e0 (pre' ++ e :: post) eq_refl H2). f_equal. change (e0 :: pre' ++ e :: post) with ((e0 :: pre') ++ e :: post).
  apply (residuals_mapM (eval g) [] c) in H3. change (set_nums c [] []) with c in H3.
  rewrite map_app, mapM_app, H3. cbn [bind map mapM]. unfold eval_scalar at 1. rewrite H1.
  destruct (do vs <- r; do v <- idx vs 0; unwrap (get_scalar v)); cbn [bind]; try reflexivity.
  destruct (mapM _ (map _ post)); reflexivity.
Qed.
(** A later equation with an error or a panic (the first is the subject of C35). *)
Theorem c86_later_error (pre post : list equation) e ks c x : Forall2 (misses_by c) pre ks -> pre <> [] ->
  outcome (AOp OSub (fst e) (snd e)) c (Err x) -> outcome (AEq (pre ++ e :: post) []) c (Err x).
Proof. intros Hp Hne H. destruct (later_at pre post e ks c _ Hp Hne H) as [f Hf]. apply (solve_outcome _ _ _ _ f); [exact Hf|discriminate]. Qed.
Theorem c86_later_panic (pre post : list equation) e ks c : Forall2 (misses_by c) pre ks -> pre <> [] ->
  outcome (AOp OSub (fst e) (snd e)) c Panic -> outcome (AEq (pre ++ e :: post) []) c Panic.
Proof. intros Hp Hne H. destruct (later_at pre post e ks c _ Hp Hne H) as [f Hf]. apply (solve_outcome _ _ _ _ f); [exact Hf|discriminate]. Qed.
(** A later equation that is not about numbers makes the program panic. *)
Theorem c86_later_no_number (pre post : list equation) e ks c vs : Forall2 (misses_by c) pre ks -> pre <> [] ->
  outcome (AOp OSub (fst e) (snd e)) c (Ok vs) -> (forall s rest, vs <> Scalar s :: rest) -> outcome (AEq (pre ++ e :: post) []) c Panic.
Proof.
  intros Hp Hne H Hv. destruct (later_at pre post e ks c _ Hp Hne H) as [f Hf]. apply (solve_outcome _ _ _ _ f); [|discriminate].
  destruct vs as [|[m|w|s] rest]; try exact Hf. exfalso. now apply (Hv s rest).
Qed.
(** The vector without components is not a well-formed value: taking an element
    of it (at a whole number >= 0) panics (maths.rs [get]: [a.len() - 1]). *)
Theorem c86_get_panics (eqs : list equation) c ks i s rest : eqs <> [] -> Forall2 (misses_by c) eqs ks -> tiny ks = true ->
  outcome i c (Ok (Scalar s :: rest)) -> nrem1_zero s = true -> nsign_neg s = false -> outcome (AOp OGet (AEq eqs []) i) c Panic.
Proof.
  intros Hne H Ht [_ [f1 H1]] Hw Hs. destruct (c86_holds eqs c ks Hne H Ht) as [_ [f2 H2]].
  apply (outcome_intro (S (max f1 f2))); [|discriminate]. unfold eval in *. cbn [eval_rec].
  rewrite H1, H2 by lia. assert (G : @get NF (Vector []) (Scalar s) = Panic) by (unfold get; rewrite Hw, Hs; reflexivity).
  assert (G2 : @apply_op NF OGet (Vector []) (Scalar s) = Panic) by (unfold apply_op; rewrite G; reflexivity).
  unfold concatM. cbn [bind mapM]. rewrite G2. reflexivity.
Qed.
End Binary64.

Module Examples.
Local Existing Instance NT.
Local Existing Instance ET.
Definition ctx0 : Ctx NT := mkCtx [] [].
Definition k (z : Z) : AST NT := AScalar (num z).
(** eq(1 = 1, 2 = 2) and eq(1 = 1, 2 = 3) *)
Definition yes : list (AST NT * AST NT) := [(k 1, k 1); (k 2, k 2)].
Definition no : list (AST NT * AST NT) := [(k 1, k 1); (k 2, k 3)].
Definition miss (a b : Z) : @T NT := @nadd NT (num a) (@nmul NT (num b) nm1).
Lemma gap a b : outcome (AOp OSub (k a) (k b)) ctx0 (Ok [Scalar (miss a b)]).
Proof. apply (outcome_intro 2); [reflexivity|discriminate]. Qed.
Lemma yes_gaps : Forall2 (misses_by ctx0) yes [miss 1 1; miss 2 2].
Proof. repeat constructor; exists []; apply gap. Qed.
Lemma no_gaps : Forall2 (misses_by ctx0) no [miss 1 1; miss 2 3].
Proof. repeat constructor; exists []; apply gap. Qed.
Example c86_yes : outcome (AEq yes []) ctx0 (Ok [Vector []]).
Proof. apply (c86_holds toy yes ctx0 _ ltac:(discriminate) yes_gaps). vm_compute. reflexivity. Qed.
Example c86_no : outcome (AEq no []) ctx0 (Ok []).
Proof. apply (c86_fails toy no ctx0 _ ltac:(discriminate) no_gaps). vm_compute. reflexivity. Qed.
Example c86_error : outcome (AEq (yes ++ [(AVar (lit "x"), k 1)]) []) ctx0 (Err (NoVariable (lit "x"))).
Proof.
  apply (c86_later_error toy yes [] (AVar (lit "x"), k 1) _ ctx0 _ yes_gaps ltac:(discriminate)).
  apply (outcome_intro 2); [reflexivity|discriminate].
Qed.
(** An accepted text that makes eval panic. *)
Theorem c86_text : parse (lit "eq(1=1,2=2)?0") = Ok (AOp OGet (AEq yes []) (k 0)) /\ outcome (AOp OGet (AEq yes []) (k 0)) ctx0 Panic.
Proof.
  split; [reflexivity|].
  apply (c86_get_panics toy yes ctx0 _ _ (num 0) [] ltac:(discriminate) yes_gaps); [vm_compute; reflexivity| |reflexivity|reflexivity].
  apply (outcome_intro 1); [reflexivity|discriminate].
Qed.
End Examples.
