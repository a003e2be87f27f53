(** * PropLinear: C60, systems of linear equations in exact arithmetic. *)
From Coq Require Import ZArith Lia List String.
Set Warnings "-notation-overridden,-ambiguous-paths".
From mathcomp Require Import all_ssreflect all_algebra zify.
From Verif Require Import Base BaseFacts F64 Num Types Maths Parser Eval EvalFuel SpecEval EvalProofs ContextProofs GrammarSpec
  MathsForms CalcSpec SolveSpec SolveProofs SolveProofs2 PropEval PropSolve SolveForward
  Exact ExactSpec ExactLinear ExactRound PropExact PropCalcExact PropAccuracy.
Import GRing.Theory Order.Theory mathcomp.algebra.ssrnum.Num.Theory.
Set Implicit Arguments.
Unset Strict Implicit.
Unset Printing Implicit Defensive.
Local Open Scope ring_scope.

Section Linear.
Context {En : Env}.
Variables (F : archiFieldType) (L : lib F).
Notation NX := (Exact L).
Notation outcomeX := (@outcome NX En).

(** The components of a vector as numbers of the crate. *)
Definition coords n (x : 'cV[F]_n) : list (@T NX) := [seq Fin (x i 0) | i <- enum 'I_n].

Lemma coords_vfins n (x : 'cV[F]_n) : coords x = vfins L n (fun i => fn x i 0%N).
Proof. have := vec_vfins L x. rewrite /vec => -[]. exact. Qed.
Lemma coords_length n (x : 'cV[F]_n) : List.length (coords x) = n.
Proof. by rewrite coords_vfins vfins_length. Qed.
Lemma coords_com n (x : 'cV[F]_n) (i : 'I_n) : com (coords x) i = Fin (x i 0).
Proof. by rewrite coords_vfins vfins_com // -[0%N]/(val (0 : 'I_1)) fn_ord. Qed.
Lemma coords_const n (x : F) : coords (const_mx x : 'cV[F]_n) = List.repeat (Fin x) n.
Proof.
  rewrite coords_vfins /vfins -[RHS](tab_id _ (Fin 0)) repeat_length. apply: tab_ext => i /nltP Hi.
  rewrite -[i]/(val (Ordinal Hi)) -[0%N]/(val (0 : 'I_1)) fn_ord mxE.
  by rewrite (nth_indep _ _ (Fin x)) ?repeat_length ?nth_repeat //; apply/nltP.
Qed.

(** Enough fuel for finitely many points. *)
Lemma enough_fuel (eqs : list (AST NX * AST NX)) sv c (l : list (list (@T NX) * list (@T NX))) :
  (forall p, List.In p l -> List.Forall2 (misses_by (set_nums c sv (fst p))) eqs (snd p)) ->
  exists f0, forall f, (f0 <= f)%N -> forall p, List.In p l ->
    values_at (eval f) [seq AOp OSub (fst e) (snd e) | e <- eqs] sv c (fst p) (snd p).
Proof.
  elim: l => [|p l IH] H; first by exists 0%N => f _ q [].
  case: IH => [q Hq|f0 H0]; first by apply: H; right.
  have [f1 H1] : exists f1, forall f, (f1 <= f)%N ->
    values_at (eval f) [seq AOp OSub (fst e) (snd e) | e <- eqs] sv c (fst p) (snd p).
  { have := H p (or_introl erefl). rewrite /values_at. elim => [|e s es ss [rest [_ [f1 H1]]] _ [f2 H2]].
    - by exists 0%N => f _; constructor.
    - exists (maxn f1 f2) => f Hf. constructor; last by apply: H2; lia.
      exists rest. apply: H1. lia. }
  exists (maxn f0 f1) => f Hf q [<-|Hq]; first by apply: H1; lia.
  apply: H0 => //. lia.
Qed.

Section System.
Variables (n : nat) (A : 'M[F]_n) (b s : 'cV[F]_n).
Hypothesis Hn : (0 < n)%N.
Hypothesis HA : regular_minors A.
Hypothesis Hs : A *m s = b.
Notation h := (10%:R ^- prec : F).
Lemma h_neq0 : h != 0. Proof. by rewrite invr_eq0 expf_neq0 // ten_neq0. Qed.
Lemma h_gt0 : 0 < h. Proof. by rewrite invr_gt0 exprn_gt0 // ltr0n. Qed.
Definition residual (x : 'cV[F]_n) : 'cV[F]_n := A *m x - b.
Definition shifted (x : 'cV[F]_n) (j : 'I_n) : 'cV[F]_n := x + h *: delta_mx j 0.

Lemma coords_shifted x (j : 'I_n) :
  set_nth (coords x) j (@nadd NX (com (coords x) j) (@step_h NX En)) = coords (shifted x j).
Proof.
  have Hj : lt j (List.length (coords x)) by rewrite coords_length; apply/nltP.
  rewrite -[LHS](tab_id _ (Fin 0 : @T NX)) set_nth_length coords_length (coords_vfins (shifted x j)) /vfins.
  apply: tab_ext => i /nltP Hi. rewrite set_nth_nth // -[i in RHS]/(val (Ordinal Hi)) -[0%N in RHS]/(val (0 : 'I_1)) fn_ord /shifted !mxE eqxx andbT.
  case: Nat.eqb_spec => [E|E].
  - have -> : Ordinal Hi = j by apply: val_inj. by rewrite coords_com step_h_fin eqxx mulr1.
  - have -> : (Ordinal Hi == j) = false by apply/eqP => E'; apply: E; rewrite -E'.
    by rewrite mulr0 addr0 -[List.nth i _ _]/(com (coords x) (Ordinal Hi)) coords_com.
Qed.

Lemma slope x (i j : 'I_n) :
  @ndiv NX (@nadd NX (Fin (residual (shifted x j) i 0)) (@nmul NX (Fin (residual x i 0)) (@nm1 NX))) (@step_h NX En) = Fin (A i j).
Proof.
  rewrite -[@nadd NX _ _]/(Fin (residual (shifted x j) i 0 + residual x i 0 * (- 1))) step_h_fin (div_fin L) ?h_neq0 //.
  congr Fin. have -> : residual (shifted x j) = residual x + h *: col j A.
  { rewrite /residual /shifted mulmxDr -scalemxAr -colE addrAC. by []. }
  by rewrite mulrN1 !mxE [_ + h * _]addrC addrK mulrC mulKf // h_neq0.
Qed.

Lemma newton_system_is (sv : list str) x : List.length sv = n ->
  newton_system sv (coords x) (coords (residual x))
     (fun i j => Fin (fn (residual (if insub j is Some j then shifted x j else x)) i 0%N))
  = system L A (- residual x).
Proof.
  move=> Hl. rewrite /newton_system Hl /system -[RHS]/([seq [seq Fin (A i j) | j <- enum 'I_n] ++ [:: Fin ((- residual x) i 0)] | i <- enum 'I_n]).
  rewrite /tab seq_iota Map_map -(val_enum_ord n) -map_comp. apply: eq_map => i /=.
  rewrite coords_com. congr (_ ++ _); last by congr (_ :: _); rewrite -[LHS]/(Fin (-1 * residual x i 0)) mulN1r !mxE.
  rewrite Map_map -map_comp. apply: eq_map => j /=. rewrite valK -[0%N]/(val (0 : 'I_1)) fn_ord. exact: slope.
Qed.

Lemma next_point x : gauss_algorithm (system L A (- residual x)) = Ok (coords (s - x)) /\ tab n (fun i => @nadd NX (com (coords (s - x)) i) (com (coords x) i)) = coords s.
Proof.
  split.
  - apply: (c38_solution L) => //. by rewrite mulmxBr Hs /residual opprB.
  - rewrite (coords_vfins s) /vfins. apply: tab_ext => i /nltP Hi.
    rewrite -[i]/(val (Ordinal Hi)) !coords_com -[0%N in RHS]/(val (0 : 'I_1)) fn_ord.
    by rewrite -[@nadd NX _ _]/(Fin ((s - x) (Ordinal Hi) 0 + x (Ordinal Hi) 0)) !mxE subrK.
Qed.

(** Every Newton search ends at the solution, or at a start that is already
    close enough. *)
Section Run.
Variables (eqs : list (AST NX * AST NX)) (sv : list str) (c : Ctx NX) (f : nat).
Hypothesis Hf : (4 <= f)%N.
Hypothesis Hnd : List.NoDup sv.
Hypothesis Hund : undefined c sv.
Hypothesis Hlsv : List.length sv = n.
Hypothesis Hleq : List.length eqs = n.
Hypothesis Hsqrt : x_sqrt L (Fin 0) = Fin 0.
Notation es := [seq AOp OSub (fst e) (snd e) | e <- eqs].
Notation good x := (values_at (eval f) es sv c (coords x) (coords (residual x))).

Lemma ev_agree (a : AST NX) c1 c2 : (forall m, named m (vars c1) = named m (vars c2)) -> funs c1 = funs c2 ->
  eval f a c1 = eval f a c2.
Proof.
  move=> H1 H2. apply: (@eval_agree NX En (fun _ => True)); [done|split; [by move=> m _|done]|by move=> m; rewrite /lookup_fun H2|done].
Qed.
Lemma ev_quot (y y0 : @T NX) c' : eval f (quotient_ast (Scalar y) (Scalar y0)) c' =
  Ok [:: Scalar (ndiv (nadd y (nmul y0 nm1)) step_h)].
Proof. by move: Hf; case: f => [|[|[|g]]]. Qed.
Lemma es_length : List.length es = List.length sv.
Proof. by rewrite -Map_map map_length Hleq Hlsv. Qed.

Lemma residual_s : residual s = 0. Proof. by rewrite /residual Hs subrr. Qed.
Lemma norm_zero m : norm (coords (0 : 'cV[F]_m)) = (Fin 0 : @T NX).
Proof.
  rewrite /norm. have -> : forall l : seq 'I_m, List.fold_left (fun t r => @nadd NX t (npowi r 2)) [seq Fin ((0 : 'cV[F]_m) i 0) | i <- l] (Fin 0) = Fin 0.
  { elim => [//|i l IH] /=. rewrite mxE. rewrite -[X in _ = X]IH. congr List.fold_left. by rewrite /= !(mulr0, mul0r, addr0). }
  exact: Hsqrt.
Qed.
Lemma small_s : small (coords (residual s)) = true.
Proof.
  rewrite /small residual_s norm_zero -[eps]/(@step_h NX En) step_h_fin. apply/andP; split.
  - rewrite -[nltb _ _]/(- h < 0) oppr_lt0. exact: h_gt0.
  - exact: h_gt0.
Qed.
Lemma fin_fine (x : F) : @fine NX (Fin x). Proof. by []. Qed.

Lemma run_from x : good x -> (forall j, good (shifted x j)) -> good s ->
  newton_loop (eval f) 1000 es [::] (pvars sv (coords x)) c =
  Ok (Some (as_solution (coords (if small (coords (residual x)) then x else s))), false, c).
Proof.
  move=> Hx Hsh Hgs. have Hc : forall y : 'cV[F]_n, List.length (coords y) = List.length sv by move=> y; rewrite coords_length Hlsv.
  case E : (small (coords (residual x))); first exact: (@finish NX En (eval f) es sv c Hund 999 (coords x) (coords (residual x)) (Hc x) Hx E).
  have [Hg Hnx] := next_point x.
  apply: (@step_finish NX En (eval f) es sv c Hund 998 (coords x) (coords s) (coords (residual s))) => //; last exact: small_s.
  have -> : coords s = tab (List.length sv) (fun i => @nadd NX (com (coords (s - x)) i) (com (coords x) i)) by rewrite Hlsv Hnx.
  apply: (@newton_step NX En (eval f) ev_agree ev_quot es sv c Hnd Hund es_length (coords x) (coords (residual x))
    (fun i j => Fin (fn (residual (if insub j is Some j then shifted x j else x)) i 0%N)) (coords (s - x))) => //.
  - move=> j. rewrite Hlsv => /nltP Hj. rewrite -[j]/(val (Ordinal Hj)) coords_shifted valK.
    rewrite -[tab _ _]/(vfins L n (fun i => fn (residual (shifted x (Ordinal Hj))) i 0%N)) -coords_vfins. exact: Hsh.
  - by rewrite newton_system_is.
  - move=> i. rewrite Hlsv => /nltP Hi. rewrite -[i]/(val (Ordinal Hi)) !coords_com. exact: fin_fine.
Qed.
End Run.

(** ** C60 *)
(** The equations [eqs], as functions of the variables [sv] in the context
    [c], are the linear system [A x = b]: at every point [x] they miss by the
    components of [A x - b]. *)
Definition linear_system (eqs : list (AST NX * AST NX)) (sv : list str) (c : Ctx NX) : Prop :=
  forall x : 'cV[F]_n, List.Forall2 (misses_by (set_nums c sv (coords x))) eqs (coords (A *m x - b)).
(** The crate starts a search at the points [(j, ..., j)]. *)
Definition start (j : Z) : 'cV[F]_n := const_mx (of_Z F j).

Variables (eqs : list (AST NX * AST NX)) (sv : list str) (c : Ctx NX).
Hypothesis Hnd : List.NoDup sv.
Hypothesis Hdef : ~ defined c sv.
Hypothesis Hlsv : List.length sv = n.
Hypothesis Hlin : linear_system eqs sv c.
Hypothesis Hsqrt : x_sqrt L (Fin 0) = Fin 0.
Variable p : F.
Hypothesis Hprobe : x_probe L = Fin p.

Lemma undef : undefined c sv.
Proof. move=> m v Hm Hv E. apply: Hdef. by exists m, v. Qed.
Lemma eqs_length : List.length eqs = n.
Proof. by have := Forall2_length (Hlin 0) => ->; rewrite coords_length. Qed.

Definition reached (j : Z) : Value NX :=
  as_solution (coords (if small (coords (residual (start j))) then start j else s)).

Lemma In_mem (U : eqType) (x : U) l : x \in l -> List.In x l.
Proof. elim: l => [//|y l IH]. rewrite inE => /orP[/eqP->|H]; [by left|right; exact: IH]. Qed.
Notation es := [seq AOp OSub (fst e) (snd e) | e <- eqs].
Lemma run_all js : exists f, [/\ (4 <= f)%N,
   forall x, List.In x [:: s; const_mx p] -> values_at (eval f) es sv c (coords x) (coords (residual x))
   & start_loop (eval f) js es [::] sv c [::] = Ok (List.map reached js)].
Proof.
  pose xs := List.app [:: s; const_mx p] (List.flat_map (fun j => start j :: List.map (shifted (start j)) (enum 'I_n)) js).
  have Hp : forall q, List.In q (List.map (fun x => (coords x, coords (residual x))) xs) ->
    List.Forall2 (misses_by (set_nums c sv (fst q))) eqs (snd q).
  { move=> q /in_map_iff [x [<- _]]. exact: Hlin. }
  have [f0 Hf0] := enough_fuel Hp.
  have Hg : forall x, List.In x xs -> forall f, (f0 <= f)%N -> values_at (eval f) es sv c (coords x) (coords (residual x)).
  { move=> x Hx f Hf. apply: (Hf0 f Hf (coords x, coords (residual x))). apply/in_map_iff. by exists x. }
  have Hstart : forall j x, List.In j js -> x = start j \/ (exists k, x = shifted (start j) k) -> List.In x xs.
  { move=> j x Hj Hx. apply/in_app_iff; right. apply/in_flat_map. exists j. split => //.
    case: Hx => [->|[k ->]]; [by left|right]. apply: in_map. apply: In_mem. by rewrite mem_enum. }
  have Hs0 : List.In s xs by left.
  have Hin : forall x, List.In x [:: s; const_mx p] -> List.In x xs by move=> x Hx; apply/in_app_iff; left.
  move: xs Hp Hf0 Hg Hstart Hs0 Hin => xs _ _ Hg Hstart Hs0 Hin.
  exists (maxn f0 4). have H0 : (f0 <= maxn f0 4)%N by exact: leq_maxl. split; first exact: leq_maxr.
  - move=> x Hx. by apply: Hg => //; apply: Hin.
  - rewrite -[RHS]/(Ok ([::] ++ List.map reached js)). apply: start_loop_forward => j Hj.
    rewrite Hlsv -coords_const -/(start j).
    apply: run_from => //; try exact: undef; try exact: eqs_length; try exact: leq_maxr.
    + apply: Hg => //. apply: (Hstart j) => //. by left.
    + move=> k. apply: Hg => //. apply: (Hstart j) => //. right. by exists k.
    + exact: Hg.
Qed.

Lemma In_starts j : List.In j starts -> Z.le (-1000) j /\ Z.lt j 1000.
Proof. move=> /in_map_iff [i [<- /in_seq Hi]]. move: Hi. clear. move=> [_ Hi]. lia. Qed.
Lemma starts_first : exists js, starts = Z.opp 1000 :: js.
Proof. by eexists. Qed.
Lemma not_small (x : 'cV[F]_n) : nltb (length2 (coords (residual x))) step_h = false -> small (coords (residual x)) = false.
Proof. rewrite /small -/(length2 (coords (residual x))) -[eps]/(@step_h NX En) => ->. exact: andbF. Qed.
Lemma is_small (x : 'cV[F]_n) : small (coords (residual x)) = true -> nltb (length2 (coords (residual x))) step_h = true.
Proof. rewrite /small -/(length2 (coords (residual x))) -[eps]/(@step_h NX En). by case/andP. Qed.
Lemma sol_number (x : 'cV[F]_n) : exists t, sort_number (as_solution (coords x)) = Some (Fin t : @T NX).
Proof.
  case: n Hn x => [//|m] _ x. exists (x 0 0). rewrite /coords enum_ordSl /=. by case: [seq _ | _ <- _].
Qed.
Lemma sol_kind (x : 'cV[F]_n) : if n == 1%N then exists t, as_solution (coords x) = Scalar t else exists w, as_solution (coords x) = Vector w.
Proof.
  have := coords_length x. case: (coords x) => [|t [|u l]] <- /=; by eexists.
Qed.
Lemma sol_same (x : 'cV[F]_n) : same_rounded (as_solution (coords x)) (as_solution (coords x)) = true.
Proof.
  have [q Hq] : exists q, Z.sub PREC 2 = Z.of_nat q by exists (Z.to_nat (Z.sub PREC 2)); rewrite /PREC; case: high_prec.
  rewrite /same_rounded Hq. have E : forall t : F, @neqb NX (@round_num NX (Z.of_nat q) (Fin t)) (@round_num NX (Z.of_nat q) (Fin t)) = true by move=> t; rewrite round_num_fin; exact: eqxx.
  have El : forall l : seq 'I_n, list_eqb (@neqb NX) (List.map (@round_num NX (Z.of_nat q)) [seq Fin (x i 0) | i <- l]) (List.map (@round_num NX (Z.of_nat q)) [seq Fin (x i 0) | i <- l]) = true by elim => [//|i l IH]; cbn [map List.map list_eqb]; rewrite E IH.
  rewrite /coords. case: (enum 'I_n) => [//|i [|k l]]; first exact: E. exact: (El (i :: k :: l)).
Qed.

Lemma probe_point : coords (const_mx p : 'cV[F]_n) = List.repeat (@nprobe NX) (List.length sv).
Proof. by rewrite coords_const Hlsv -[@nprobe NX]/(x_probe L) Hprobe. Qed.
Lemma probed ev : values_at ev es sv c (coords (const_mx p : 'cV[F]_n)) (coords (residual (const_mx p))) ->
  exists e0 eqs' t rest, eqs = e0 :: eqs' /\
    ev (AOp OSub (fst e0) (snd e0)) (set_nums c sv (List.repeat (@nprobe NX) (List.length sv))) = Ok (Scalar t :: rest).
Proof.
  rewrite probe_point /values_at. have := eqs_length. case: eqs => [|e0 eqs'] /= El; first by exfalso; move: Hn El; clear; lia.
  move=> H. inversion H as [|x1 t1 l1 l2 [rest Hr] H2]; subst. by exists e0, eqs', t1, rest.
Qed.

(** The solver reaches the solution from every start that is not close
    enough already. *)
Lemma solved : exists f, solve (eval f) eqs c sv = (do cleaned <- clean_results (List.map reached starts); Ok cleaned).
Proof.
  have [f [Hf Hg Hr]] := run_all starts. exists f.
  have [e0 [eqs' [t [rest [E Hp]]]]] := probed (Hg (const_mx p) (or_intror (or_introl erefl))).
  have Hl : List.length eqs = List.length sv by rewrite eqs_length Hlsv.
  apply: (@solve_forward NX En (eval f) eqs sv c t rest (List.map reached starts) e0 eqs' E undef Hl Hp).
  rewrite Map_map. exact: Hr.
Qed.

Lemma reached_cases v : List.In v (List.map reached starts) -> v = as_solution (coords s) \/
  exists j, [/\ Z.le (-1000) j, Z.lt j 1000, v = as_solution (coords (start j)) &
    nltb (length2 (coords (A *m start j - b))) step_h = true].
Proof.
  move=> /in_map_iff [j [<- /In_starts [Hj1 Hj2]]]. rewrite /reached. case E : (small _); last by left.
  right. exists j. split => //. exact: is_small.
Qed.
End System.

(** A square system of linear equations with nonzero leading minors: the
    solver finds its solution [s]; besides [s] it only returns integer start
    points that satisfy the equations up to 10^-PREC. *)
Theorem c60_solutions n (A : 'M[F]_n) (b s : 'cV[F]_n) (eqs : list (AST NX * AST NX)) (sv : list str) (c : Ctx NX) (p : F) :
  (0 < n)%N -> regular_minors A -> A *m s = b ->
  List.NoDup sv -> List.length sv = n -> ~ defined c sv -> linear_system A b eqs sv c ->
  x_sqrt L (Fin 0) = Fin 0 -> x_probe L = Fin p ->
  exists vs, [/\ outcomeX (AEq eqs sv) c (Ok vs), vs <> [::] &
    forall v, List.In v vs -> v = as_solution (coords s) \/
      exists j, [/\ Z.le (-1000) j, Z.lt j 1000, v = as_solution (coords (start n j)) &
        nltb (length2 (coords (A *m start n j - b))) (@step_h NX En) = true]].
Proof.
  move=> Hn HA Hs Hnd Hl Hd Hlin Hq Hp.
  have [f Hf] := solved Hn HA Hs Hnd Hd Hl Hlin Hq Hp.
  have Hcase := @reached_cases n A b s. set found := List.map _ starts in Hf Hcase.
  have Hfound : found <> [::] by rewrite /found; have [js ->] := starts_first.
  have [vs [Hvs Hne]] : exists vs, clean_results found = Ok vs /\ (found <> [::] -> vs <> [::]).
  { apply: clean_total.
    - move=> v /Hcase [->|[j [_ _ -> _]]]; by [have [t ->] := sol_number Hn s; exists (Fin t)|have [t ->] := sol_number Hn (start n j); exists (Fin t)].
    - have Hk : forall v, List.In v found -> if n == 1%N then exists t, v = Scalar t else exists w, v = Vector w.
      { move=> v /Hcase [->|[j [_ _ -> _]]]; exact: sol_kind. }
      by case: (n == 1%N) Hk => Hk; [left|right]. }
  move: Hf. rewrite Hvs [RHS]/= => Hf. exists vs. split; [by apply: (@solve_outcome NX En eqs sv c (Ok vs) f Hf)|exact: Hne|].
  move=> v Hv. apply: Hcase. exact: (@clean_results_incl NX En found vs Hvs v Hv).
Qed.
(** If no start point other than the solution is that close, the answer is
    exactly the solution. *)
Theorem c60_unique n (A : 'M[F]_n) (b s : 'cV[F]_n) (eqs : list (AST NX * AST NX)) (sv : list str) (c : Ctx NX) (p : F) :
  (0 < n)%N -> regular_minors A -> A *m s = b ->
  List.NoDup sv -> List.length sv = n -> ~ defined c sv -> linear_system A b eqs sv c ->
  x_sqrt L (Fin 0) = Fin 0 -> x_probe L = Fin p ->
  (forall j, Z.le (-1000) j -> Z.lt j 1000 -> start n j = s \/
     nltb (length2 (coords (A *m start n j - b))) (@step_h NX En) = false) ->
  outcomeX (AEq eqs sv) c (Ok [:: as_solution (coords s)]).
Proof.
  move=> Hn HA Hs Hnd Hl Hd Hlin Hq Hp Hfar.
  have [f Hf] := solved Hn HA Hs Hnd Hd Hl Hlin Hq Hp.
  have Hcase := @reached_cases n A b s. set found := List.map _ starts in Hf Hcase.
  have Hfound : found <> [::] by rewrite /found; have [js ->] := starts_first.
  move: Hf. rewrite (@clean_copies NX En (as_solution (coords s))).
  - move=> Hf. by apply: (@solve_outcome NX En eqs sv c (Ok [:: as_solution (coords s)]) f Hf).
  - exact: sol_same.
  - have := sol_kind s. by case: (n == 1%N) => -[t ->].
  - exact: Hfound.
  - move=> v /Hcase [//|[j [H1 H2 -> H3]]]. case: (Hfar j H1 H2) => [->//|H]. by rewrite H in H3.
Qed.
(** A system in which one equation follows from the ones before it has
    infinitely many solutions; the solver returns none. *)
Theorem c60_dependent n (A : 'M[F]_n) (b : 'cV[F]_n) (eqs : list (AST NX * AST NX)) (sv : list str) (c : Ctx NX) (p : F)
  (j : 'I_n) (a : 'I_n -> F) :
  (0 < j)%N -> (forall k (kn : (k <= n)%N), (k <= j)%N -> \det (leading A kn kn) != 0) ->
  row j A = \sum_(t < n | (t < j)%N) a t *: row t A -> b j 0 = \sum_(t < n | (t < j)%N) a t * b t 0 ->
  List.NoDup sv -> List.length sv = n -> ~ defined c sv -> linear_system A b eqs sv c -> x_probe L = Fin p ->
  nltb (length2 (coords (A *m start n (-1000) - b))) (@step_h NX En) = false ->
  outcomeX (AEq eqs sv) c (Ok [::]).
Proof.
  move=> Hj Hm HA Hb Hnd Hl Hd Hlin Hp Hfar.
  have Hn : (0 < n)%N by apply: leq_ltn_trans (ltn_ord j).
  pose es := [seq AOp OSub (fst e) (snd e) | e <- eqs]. pose x := start n (-1000).
  pose xs := List.app [:: const_mx p; x] (List.map (shifted x) (enum 'I_n)).
  have Hpt : forall q, List.In q (List.map (fun x => (coords x, coords (residual A b x))) xs) ->
    List.Forall2 (misses_by (set_nums c sv (fst q))) eqs (snd q).
  { move=> q /in_map_iff [y [<- _]]. exact: Hlin. }
  have [f0 Hf0] := enough_fuel Hpt. pose f := maxn f0 4.
  have Hg : forall x, List.In x xs -> values_at (eval f) es sv c (coords x) (coords (residual A b x)).
  { move=> y Hy. apply: (Hf0 f (leq_maxl _ _) (coords y, coords (residual A b y))). apply/in_map_iff. by exists y. }
  have Hsh : forall k, List.In (shifted x k) xs.
  { move=> k. apply/in_app_iff; right. apply: in_map. apply: In_mem. by rewrite mem_enum. }
  have Hund : undefined c sv := undef Hd.
  have Hle : List.length eqs = n := eqs_length Hlin.
  have Hes : List.length es = List.length sv by rewrite /es -Map_map map_length Hle Hl.
  have Hg4 : (4 <= f)%N by exact: leq_maxr.
  have Hnw : newton (eval f) es [::] (pvars sv (coords x)) c = (Err InfiniteSolutions, c).
  { apply: (@newton_stuck NX En (eval f) (@ev_agree f) (ev_quot Hg4) es sv c Hnd Hund Hes (coords x) (coords (residual A b x))
      (fun i k => Fin (fn (residual A b (if insub k is Some k then shifted x k else x)) i 0%N))).
    - by rewrite coords_length Hl.
    - apply: Hg. by right; left.
    - exact: not_small.
    - move=> k. rewrite Hl => /nltP Hk. rewrite -[k]/(val (Ordinal Hk)) coords_shifted valK.
      rewrite -[tab _ _]/(vfins L n (fun i => fn (residual A b (shifted x (Ordinal Hk))) i 0%N)) -coords_vfins. exact: Hg.
    - rewrite newton_system_is //. apply: (@c38_infinite_solutions F L n A (- residual A b x) j a Hj Hm HA).
      rewrite /residual !mxE Hb.
      have -> : \sum_k A j k * x k 0 = \sum_(t < n | (t < j)%N) a t * (\sum_k A t k * x k 0).
      { have E k : A j k = \sum_(t < n | (t < j)%N) a t * A t k.
        { have := congr1 (fun M : 'rV_n => M 0 k) HA. rewrite mxE summxE => ->. apply: eq_bigr => t _. by rewrite !mxE. }
        under eq_bigr do rewrite E big_distrl. rewrite exchange_big. apply: eq_bigr => t _.
        rewrite big_distrr. apply: eq_bigr => k _. exact: esym (mulrA _ _ _). }
      rewrite opprB -sumrB. apply: eq_bigr => t _. by rewrite !mxE opprB mulrBr. }
  have [js Hjs] := starts_first.
  have Hsl : start_loop (eval f) starts es [::] sv c [::] = Ok [::].
  { rewrite Hjs. apply: start_loop_stuck. apply: (@stuck_loop NX En (eval f) es sv c 999). by rewrite Hl -coords_const. }
  have [e0 [eqs' [t [rest [E Hpr]]]]] := probed Hn Hl Hlin Hp (Hg (const_mx p) (or_introl erefl)).
  have Hll : List.length eqs = List.length sv by rewrite Hle Hl.
  have Hf : solve (eval f) eqs c sv = Ok [::].
  { rewrite (@solve_forward NX En (eval f) eqs sv c t rest [::] e0 eqs' E Hund Hll Hpr) //. }
  by apply: (@solve_outcome NX En eqs sv c (Ok [::]) f Hf).
Qed.
End Linear.

(** ** Concrete cases *)
Module Examples.
Section Examples.
Context {En : Env}.
Variables (F : archiFieldType).
(** A library whose square root fixes every number: enough to tell which
    points the crate takes for solutions, since only lengths below 10^-PREC
    count. *)
Definition L1 : lib F :=
  {| x_sqrt := id; x_powf := fun a _ => a; x_sin := id; x_cos := id; x_tan := id; x_asin := id; x_acos := id; x_atan := id; x_ln := id;
     x_probe := Fin 0; x_pi := NaN; x_e := NaN; x_parse := fun _ => None; x_show := fun _ => nil; x_show_sci := fun _ => nil |}.
Notation NX := (Exact L1).
Definition X : str := lit "x".
Definition Y : str := lit "y".
Definition ctx0 : Ctx NX := mkCtx nil nil.
(** [p x + q y = r] *)
Definition line (p q r : F) : AST NX * AST NX := (@combined F L1 p q (AVar X) (AVar Y), AScalar (Fin r : @T NX)).
Lemma line_misses p q r u v : @misses_by NX En (@set_nums NX ctx0 [:: X; Y] [:: Fin u; Fin v]) (line p q r) (Fin (p * u + q * v - r)).
Proof.
  exists nil. have H : @outcome NX En (fst (line p q r)) (@set_nums NX ctx0 [:: X; Y] [:: Fin u; Fin v]) (Ok [:: sca L1 (p * u + q * v)]).
  { apply: combined_outcome.
    - exact: (@var_outcome NX En nil (@set_nums NX ctx0 [:: X; Y] [:: Fin u; Fin v]) X).
    - exact: (@var_outcome NX En nil (@set_nums NX ctx0 [:: X; Y] [:: Fin u; Fin v]) Y). }
  have H' := @op_outcome_grid NX En nil _ OSub (fst (line p q r)) (snd (line p q r)) [:: sca L1 (p * u + q * v)] [:: sca L1 r] H (@scalar_outcome NX En nil _ _).
  have -> : p * u + q * v - r = p * u + q * v + r * (-1) by rewrite mulrN1.
  by apply: H'.
Qed.
(** Any two by two system. *)
Definition two (A : 'M[F]_2) (b : 'cV[F]_2) : list (AST NX * AST NX) :=
  [:: line (A 0 0) (A 0 1) (b 0 0); line (A 1 0) (A 1 1) (b 1 0)].
Lemma enum2 : enum 'I_2 = [:: 0; 1].
Proof. apply: (inj_map val_inj). by rewrite val_enum_ord. Qed.
Lemma two_linear A b : @linear_system En F L1 2 A b (two A b) [:: X; Y] ctx0.
Proof.
  move=> x. rewrite /coords !enum2 /=.
  have E i : (A *m x - b) i 0 = A i 0 * x 0 0 + A i 1 * x 1 0 - b i 0.
  { rewrite !mxE !big_ord_recl big_ord0 addr0. by congr (A i _ * x _ 0 + A i _ * x _ 0 - _); apply: val_inj. }
  rewrite !E. constructor; [exact: line_misses|constructor; [exact: line_misses|constructor]].
Qed.
Lemma two_length (A : 'M[F]_2) (b x : 'cV[F]_2) :
  @length2 NX (coords L1 (A *m x - b)) = Fin (((A *m x - b) 0 0) ^+ 2 + ((A *m x - b) 1 0) ^+ 2).
Proof.
  rewrite /coords enum2 /=. move: ((A *m x - b) 0 0) ((A *m x - b) 1 0) => u v.
  by rewrite -[Pos.to_nat 1]/1%N !mul1r add0r !expr2.
Qed.
Lemma far (x : F) : 1 <= x -> @nltb NX (Fin x) (@step_h NX En) = false.
Proof.
  move=> H. rewrite step_h_fin. apply/negbTE. rewrite -leNgt. apply: le_trans H.
  rewrite -exprVn exprn_ile1 ?invr_ge0 ?ler0n // invf_le1 ?ltr0n // ler1n //.
Qed.
Lemma sv_distinct : List.NoDup [:: X; Y].
Proof. constructor; first by move=> [|[]]. constructor; [by case|constructor]. Qed.
Lemma sv_free : ~ @defined NX ctx0 [:: X; Y].
Proof. by move=> [n [v [_ []]]]. Qed.

(** [x + y = 3, x - y = 1] has the answer [[2, 1]]. *)
Definition A : 'M[F]_2 := \matrix_(i < 2, j < 2) (if (i == 1) && (j == 1) then -1 else 1).
Definition b : 'cV[F]_2 := \col_(i < 2) (if i == 0 then 3%:R else 1).
Definition s : 'cV[F]_2 := \col_(i < 2) (if i == 0 then 2%:R else 1).
Lemma A_regular : regular_minors A.
Proof.
  case=> [|[|[|k]]] // kn; first by rewrite det_mx00 oner_neq0.
  - by rewrite det_mx11 !mxE oner_neq0.
  - rewrite (expand_det_row _ ord0) !big_ord_recl big_ord0 /cofactor !det_mx11 !mxE.
    rewrite -[_ != 0]/(1 * ((-1) ^+ 0 * -1) + (1 * ((-1) ^+ 1 * 1) + 0) != 0 :> F) addr0 !mul1r ?expr0 expr1 ?mul1r mulr1.
    by rewrite -opprD oppr_eq0 (_ : 1 + 1 = 2%:R) // pnatr_eq0.
Qed.
Lemma A_s : A *m s = b.
Proof.
  apply/colP => i. rewrite !mxE !big_ord_recl big_ord0 !mxE /=. case: i => [[|[|i]] Hi] //=.
  - by rewrite !mul1r addr0 -[1]/(1%:R) -natrD.
  - by rewrite mul1r mulN1r addr0 -[2%:R]/(1 + 1) addrK.
Qed.
Example two_unknowns : @outcome NX En (AEq (two A b) [:: X; Y]) ctx0 (Ok [:: @Vector NX [:: Fin 2%:R; Fin 1]]).
Proof.
  have H := @c60_unique En F L1 2 A b s (two A b) [:: X; Y] ctx0 0 isT A_regular A_s sv_distinct erefl sv_free (@two_linear A b) erefl erefl.
  have E : coords L1 s = [:: Fin 2%:R; Fin 1] by rewrite /coords enum2 /= !mxE.
  move: H. rewrite E. apply => j _ _. right. rewrite two_length. apply: far.
  have -> : (A *m start F 2 j - b) 1 0 = -1.
  { rewrite !mxE !big_ord_recl big_ord0 !mxE /=. by rewrite mul1r mulN1r addr0 subrr sub0r. }
  by rewrite sqrrN expr1n ler_addr sqr_ge0.
Qed.
(** [x + 2y = 1, 2x + 4y = 2]: infinitely many solutions, none reported. *)
Example dependent : @outcome NX En (AEq (two (PropExact.Examples.B F) (PropExact.Examples.b F)) [:: X; Y]) ctx0 (Ok [::]).
Proof.
  apply: (@c60_dependent En F L1 2 (PropExact.Examples.B F) (PropExact.Examples.b F) _ _ _ 0 1 (fun _ => 2%:R)) => //.
  - case=> [|[|k]] // kn _; first by rewrite det_mx00 oner_neq0. by rewrite det_mx11 !mxE mulr1 oner_neq0.
  - apply/rowP => j. rewrite mxE summxE big_mkcond !big_ord_recl big_ord0 /=. rewrite addr0 addr0 !mxE. by rewrite mul1r.
  - rewrite mxE big_mkcond !big_ord_recl big_ord0 /=. rewrite addr0 addr0 !mxE. by rewrite mulr1.
  - exact: sv_distinct.
  - exact: sv_free.
  - exact: two_linear.
  - rewrite two_length. apply: far.
    have -> : (PropExact.Examples.B F *m start F 2 (-1000) - PropExact.Examples.b F) 0 0 = - 3001%:R.
    { have H : of_Z F (-1000) = - 1000%:R by [].
      rewrite !mxE !big_ord_recl big_ord0 !mxE H. move: (1000)%N (3001)%N (erefl : 3001%N = (1000 + 2 * 1000 + 1)%N) => m k ->.
      rewrite /= addr0 !mul1r mulrN -!opprD -natrM -natrD -[1]/(1%:R) -natrD. by []. }
    by rewrite sqrrN -natrX ler_paddr ?sqr_ge0 // ler1n expn_gt0.
Qed.
End Examples.
End Examples.
