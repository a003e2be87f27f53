(** * PropSearch: C69 - what eq computes: which choices of equations it searches, from which points, and what it reports. *)
From Coq Require Import List NArith ZArith Bool Lia Arith Sorting.Sorted.
From Verif Require Import Base BaseFacts F64 Num Types Maths Helpers Parser Eval EvalFuel SpecEval
  FloatFacts SolveFloat EvalProofs ContextProofs GrammarSpec MathsForms CalcSpec SolveSpec SolveProofs SolveProofs2 PropSolve SolveForward SearchSpec Search Toy.
Import ListNotations.

Section Generic.
Context {N : Num} {En : Env}.
Notation V := (Value N).
Notation equation := (AST N * AST N)%type.

(** A search has one result. *)
Theorem c69_search_determined (eqs : list equation) sv c l found found' :
  finds eqs sv c l found -> finds eqs sv c l found' -> found = found'.
Proof. apply searched_det. Qed.

Definition choices (eqs : list equation) (sv : list str) : list (list nat) :=
  if Nat.ltb (List.length sv) (List.length eqs) then combs (seq 0 (List.length eqs)) (List.length sv) else [seq 0 (List.length eqs)].
Lemma choices_spec (eqs : list equation) sv l : List.length sv <= List.length eqs -> In l (choices eqs sv) <-> is_choice (List.length sv) (List.length eqs) l.
Proof.
  intros H. unfold choices. pose proof (comb_choice (map (fun i => AOp OSub (fst i) (snd i)) eqs) sv l) as G. rewrite map_length in G. now apply G.
Qed.
Lemma choices_sorted (eqs : list equation) sv : StronglySorted lex (choices eqs sv).
Proof. unfold choices. destruct (Nat.ltb _ _); [apply combs_sorted|repeat constructor]. Qed.

Lemma loops_attempt f (eqs : list equation) sv c l s k : split_exprs (map (fun i => AOp OSub (fst i) (snd i)) eqs) l = Ok (s, k) ->
  attempt (eval f) s k sv c = do found <- loops f eqs sv c l; clean_results found.
Proof. intros H. unfold attempt, loops, loops_js. rewrite H. cbn [bind fst snd]. generalize starts. intros js. reflexivity. Qed.
Lemma comb_loop_step f (eqs : list equation) sv c l ls : is_choice (List.length sv) (List.length eqs) l ->
  comb_loop (eval f) (l :: ls) (map (fun i => AOp OSub (fst i) (snd i)) eqs) c sv =
  do found <- loops f eqs sv c l; do cleaned <- clean_results found;
  match cleaned with [] => comb_loop (eval f) ls (map (fun i => AOp OSub (fst i) (snd i)) eqs) c sv | _ => Ok cleaned end.
Proof.
  intros (H1 & H2 & H3). cbn [comb_loop]. unfold loops, loops_js.
  rewrite split_picked by (try assumption; now rewrite map_length). cbn [bind fst snd]. generalize starts. intros js. reflexivity.
Qed.

(** The solver, once the first equation has been tried out. *)
Lemma solve_general f (eqs : list equation) sv c e0 eqs' s rest : eqs = e0 :: eqs' -> undefined c sv -> List.length sv <= List.length eqs ->
  eval f (AOp OSub (fst e0) (snd e0)) (probe_context c sv) = Ok (Scalar s :: rest) ->
  solve (eval f) eqs c sv = comb_loop (eval f) (choices eqs sv) (map (fun i => AOp OSub (fst i) (snd i)) eqs) c sv.
Proof.
  intros E Hd Hl Hp. unfold solve, rf_new. subst eqs. pose proof (all_operations (e0 :: eqs')) as Ho.
  set (es := map _ (e0 :: eqs')) in *. assert (He : es = AOp OSub (fst e0) (snd e0) :: map (fun i => AOp OSub (fst i) (snd i)) eqs') by reflexivity.
  assert (Hel : List.length es = List.length (e0 :: eqs')) by (unfold es; now rewrite map_length).
  rewrite He at 1. rewrite Ho. cbn [negb].
  destruct (existsb _ sv) eqn:Ex.
  { apply defined_spec in Ex as (n & v & Hn & Hv & E). exfalso. exact (Hd n v Hn Hv E). }
  rewrite Hel. destruct (Nat.ltb_spec (List.length (e0 :: eqs')) (List.length sv)) as [|_]; [lia|].
  rewrite probe_context_eq, Hp. cbn [bind idx nth_error unwrap].
  unfold find_roots. cbn [rf_combinations rf_expressions rf_context rf_search_vars].
  assert (Ep : fold_left remove_var sv (probe_context c sv) = c).
  { rewrite <- (probe_restored c sv Hd) at 2. f_equal. symmetry. apply probe_context_eq. }
  rewrite Ep, generate_combinations_eq. reflexivity.
Qed.
End Generic.

Section Binary64.
Variable lm : Libm.
Local Instance NF : Num := F64 lm.
Context {En : Env}.
Notation V := (Value NF).
Notation equation := (AST NF * AST NF)%type.

(** Every point found is finite. *)
Lemma run_fine miss search check sv c n xs e : @run NF En miss search check sv c n xs e ->
  forallb finite xs = true -> List.length xs = List.length sv -> List.length search = List.length sv ->
  forall ys, e = Found ys -> forallb finite ys = true /\ List.length ys = List.length sv.
Proof.
  induction 1 as [xs|m xs rs ks' Hr Ht Hk Hok|m xs rs ks' Hr Ht Hk Hne Hno|m xs rs cols Hr Ht Hc Hg|m xs rs cols d Hr Ht Hc Hg Hinf|m xs rs cols d e Hr Ht Hc Hg Hfin H IH];
    intros Hf Hl Hs ys E; try discriminate E.
  - injection E as <-. auto.
  - apply IH; auto. assert (Hdl : List.length d = List.length sv).
    { rewrite (gauss_length _ _ Hg), <- Hs, (Forall2_length Hr). unfold newton_rows. now rewrite map_length, combine_length, seq_length, Nat.min_id. }
    unfold moved. rewrite map_length, combine_length. lia.
Qed.
Lemma starting_fine j : In j starting_numbers -> @finite NF (nof_Z j) = true.
Proof. rewrite <- starts_integers. intros H. unfold finite. now rewrite (starts_fine lm j H). Qed.
Lemma searched_fine miss search check sv c js found : List.length search = List.length sv -> (forall j, In j js -> @finite NF (nof_Z j) = true) ->
  @searched NF En miss search check sv c js found ->
  Forall (fun v => exists xs, v = as_solution xs /\ forallb (@finite NF) xs = true /\ List.length xs = List.length sv) found.
Proof.
  intros Hs Hj H. assert (Hst : forall j, In j js -> forallb (@finite NF) (start_point sv j) = true).
  { intros j Hin. apply forallb_forall. intros x Hx. apply repeat_spec in Hx as ->. now apply Hj. }
  clear Hj. induction H as [|j js xs found Hr H IH|j js found Hr H IH|j js Hr]; [constructor| | |constructor].
  - constructor.
    + destruct (run_fine _ _ _ _ _ _ _ _ Hr (Hst j (or_introl eq_refl)) ltac:(apply repeat_length) Hs xs eq_refl). eauto.
    + apply IH. intros; apply Hst; now right.
  - apply IH. intros; apply Hst; now right.
Qed.
Lemma finds_fine (eqs : list equation) sv c l found : is_choice (List.length sv) (List.length eqs) l -> finds eqs sv c l found ->
  Forall (fun v => exists xs, v = as_solution xs /\ forallb (@finite NF) xs = true /\ List.length xs = List.length sv) found.
Proof.
  intros (H1 & H2 & H3) H. eapply searched_fine; [|exact starting_fine|exact H]. now rewrite picked_length.
Qed.

Lemma clean_inv (eqs : list equation) sv c l found vs : is_choice (List.length sv) (List.length eqs) l -> finds eqs sv c l found -> clean_results found = Ok vs ->
  exists reps, representatives found reps /\ selection reps vs.
Proof.
  intros Hc Hf H. exists (dedupe found). apply (@clean_results_selection NF En fltb_asym fle_trans); [|exact H].
  intros v Hv. pose proof (finds_fine _ _ _ _ _ Hc Hf) as Hall. rewrite Forall_forall in Hall. destruct (Hall v Hv) as (xs & -> & _).
  destruct xs as [|x [|y xs]]; reflexivity.
Qed.
Lemma selection_nil found reps : @representatives NF En found reps -> selection reps [] -> found = [].
Proof.
  intros Hr [[_ E]|(_ & H & _)]; [|discriminate]. destruct found as [|v found]; [reflexivity|].
  destruct (representatives_complete _ _ v Hr (or_introl eq_refl)) as (w & Hw & _). rewrite <- E in Hw. contradiction.
Qed.

(** What [eq(...)] returns was computed like this. *)
Theorem c69_answer (eqs : list equation) sv c vs : NoDup sv -> outcome (AEq eqs sv) c (Ok vs) ->
  (vs = [] /\ forall l, is_choice (List.length sv) (List.length eqs) l -> finds eqs sv c l []) \/
  (vs <> [] /\ exists l found reps, is_choice (List.length sv) (List.length eqs) l /\
     finds eqs sv c l found /\ representatives found reps /\ selection reps vs /\
     forall l', is_choice (List.length sv) (List.length eqs) l' -> lex l' l -> finds eqs sv c l' []).
Proof.
  intros Hnd H. destruct (c35_ok_only_if _ _ _ _ H) as (_ & Hdf & Hlen & _).
  assert (Hd : undefined c sv) by (intros n v Hn Hv E; apply Hdf; exists n, v; auto).
  apply c39_solve_is_eq in H as [_ [f0 H]]. set (f := max 4 f0). specialize (H f (Nat.le_max_r _ _)).
  assert (Hf : 4 <= f) by apply Nat.le_max_l. clearbody f.
  apply solve_ok_inv in H as (Hne & _ & Hl & H). cbn zeta in H. rewrite map_length in H. fold (choices eqs sv) in H.
  assert (Hfail : forall l s k, is_choice (List.length sv) (List.length eqs) l -> split_exprs (map (fun i => AOp OSub (fst i) (snd i)) eqs) l = Ok (s, k) ->
      attempt (eval f) s k sv c = Ok [] -> finds eqs sv c l []).
  { intros l s k Hc Hs Ha. rewrite (loops_attempt f eqs sv c l s k Hs) in Ha. apply bind_ok in Ha as (found & Hlo & Ha).
    apply (loops_finds f eqs sv c l found Hnd Hd Hf Hc) in Hlo. destruct (clean_inv _ _ _ _ _ _ Hc Hlo Ha) as (reps & Hr & Hsel).
    now rewrite (selection_nil _ _ Hr Hsel) in Hlo. }
  pose proof (choices_sorted eqs sv) as Hs. pose proof (fun l => choices_spec eqs sv l Hl) as Hcs.
  apply comb_loop_first in H as [(-> & Hall)|(Hnv & pre & i & post & s & k & Epre & Hsp & Ha & Hpre)].
  - left. split; [reflexivity|]. intros l Hc. destruct (Hall l (proj2 (Hcs l) Hc)) as (s & k & Hsp & Ha). eauto.
  - right. split; [exact Hnv|].
    assert (Hi : is_choice (List.length sv) (List.length eqs) i) by (apply Hcs; rewrite Epre, in_app_iff; cbn; auto).
    rewrite (loops_attempt f eqs sv c i s k Hsp) in Ha. apply bind_ok in Ha as (found & Hlo & Ha).
    apply (loops_finds f eqs sv c i found Hnd Hd Hf Hi) in Hlo. destruct (clean_inv _ _ _ _ _ _ Hi Hlo Ha) as (reps & Hr & Hsel).
    exists i, found, reps. split; [exact Hi|]. split; [exact Hlo|]. split; [exact Hr|]. split; [exact Hsel|].
    intros l' Hc Hlex.
    assert (Hin : In l' pre).
    { apply Hcs in Hc. rewrite Epre in Hc. apply in_app_iff in Hc as [Hc|[->|Hc]]; [exact Hc| |].
      - exfalso. eapply lex_irrefl; eauto.
      - exfalso. rewrite Epre in Hs. clear -Hs Hc Hlex.
        assert (Hsuf : StronglySorted lex (i :: post)).
        { induction pre as [|x pre IH]; [exact Hs|]. apply IH. now inversion Hs. }
        inversion Hsuf as [|? ? _ Hf]; subst. rewrite Forall_forall in Hf. exact (lex_asym _ _ (Hf _ Hc) Hlex). }
    destruct (Hpre l' Hin) as (s' & k' & Hsp' & Ha'). eauto.
Qed.

(** The conditions under which the search begins. *)
Definition searchable (eqs : list equation) (sv : list str) (c : Ctx NF) : Prop :=
  NoDup sv /\ sv <> [] /\ ~ defined c sv /\ List.length sv <= List.length eqs /\
  exists l r eqs' s, eqs = (l, r) :: eqs' /\ misses_by (probe_context c sv) (l, r) s.

Lemma comb_loop_nothing f (eqs : list equation) sv c pre post : 
  (forall l, In l pre -> is_choice (List.length sv) (List.length eqs) l /\ loops f eqs sv c l = Ok []) ->
  comb_loop (eval f) (pre ++ post) (map (fun i => AOp OSub (fst i) (snd i)) eqs) c sv =
  comb_loop (eval f) post (map (fun i => AOp OSub (fst i) (snd i)) eqs) c sv.
Proof.
  induction pre as [|l pre IH]; intros H; [reflexivity|]. cbn [app]. destruct (H l (or_introl eq_refl)) as [H1 H2].
  rewrite comb_loop_step, H2 by exact H1. cbn [bind clean_results]. apply IH. intros; apply H; now right.
Qed.
Lemma searchable_solve (eqs : list equation) sv c : searchable eqs sv c ->
  undefined c sv /\ exists f0, forall f, f0 <= f ->
    solve (eval f) eqs c sv = comb_loop (eval f) (choices eqs sv) (map (fun i => AOp OSub (fst i) (snd i)) eqs) c sv.
Proof.
  intros (Hnd & Hne & Hdf & Hl & a & b & eqs' & s & -> & rest & _ & f0 & Hp).
  assert (Hd : undefined c sv) by (intros n v Hn Hv E; apply Hdf; exists n, v; auto). split; [exact Hd|].
  exists f0. intros f Hf. exact (solve_general f _ sv c (a, b) eqs' s rest eq_refl Hd Hl (Hp f Hf)).
Qed.

(** If no choice of equations leads anywhere, the answer is the empty list. *)
Theorem c69_nothing_found (eqs : list equation) sv c : searchable eqs sv c ->
  (forall l, is_choice (List.length sv) (List.length eqs) l -> finds eqs sv c l []) -> outcome (AEq eqs sv) c (Ok []).
Proof.
  intros Hs Hall. destruct (searchable_solve _ _ _ Hs) as (Hd & f1 & H1). destruct Hs as (Hnd & Hne & Hdf & Hl & _).
  assert (G : forall ls, (forall l, In l ls -> is_choice (List.length sv) (List.length eqs) l) ->
     exists f0, forall f, f0 <= f -> forall l, In l ls -> loops f eqs sv c l = Ok []).
  { induction ls as [|l ls IH]; intros Hls; [exists 0; intros f _ l []|].
    destruct IH as [a Ha]; [intros; apply Hls; now right|].
    assert (Hc := Hls l (or_introl eq_refl)). destruct (finds_loops eqs sv c l [] Hnd Hd Hc (Hall l Hc)) as [b Hb].
    exists (max a b). intros f Hf l' [<-|Hl']; [apply Hb; lia|apply Ha; [lia|exact Hl']]. }
  destruct (G (choices eqs sv)) as [f0 Hf0]; [intros l; now apply choices_spec|].
  apply (solve_outcome _ _ _ _ (max f0 f1)); [|discriminate]. rewrite H1 by lia.
  rewrite <- (app_nil_r (choices eqs sv)). rewrite comb_loop_nothing; [reflexivity|].
  intros l Hin. split; [now apply choices_spec|]. apply Hf0; [lia|exact Hin].
Qed.

(** If the first choice that leads anywhere finds something, there is an answer. *)
Theorem c69_something_found (eqs : list equation) sv c l found : searchable eqs sv c ->
  is_choice (List.length sv) (List.length eqs) l -> finds eqs sv c l found -> found <> [] ->
  (forall l', is_choice (List.length sv) (List.length eqs) l' -> lex l' l -> finds eqs sv c l' []) ->
  exists vs reps, outcome (AEq eqs sv) c (Ok vs) /\ vs <> [] /\ representatives found reps /\ selection reps vs.
Proof.
  intros Hs Hc Hf Hne Hbefore. destruct (searchable_solve _ _ _ Hs) as (Hd & f1 & H1). destruct Hs as (Hnd & Hsv & Hdf & Hl & _).
  pose proof (choices_sorted eqs sv) as Hsort. pose proof (fun l => choices_spec eqs sv l Hl) as Hcs.
  destruct (in_split l (choices eqs sv)) as (pre & post & Epre); [now apply Hcs|].
  assert (Hpre : forall l', In l' pre -> is_choice (List.length sv) (List.length eqs) l' /\ lex l' l).
  { intros l' Hin. split; [apply Hcs; rewrite Epre, in_app_iff; now left|].
    rewrite Epre in Hsort. clear -Hsort Hin. induction pre as [|x pre IH]; [contradiction|].
    inversion Hsort as [|? ? Hss Hfa]; subst. destruct Hin as [->|Hin]; [|now apply IH].
    rewrite Forall_forall in Hfa. apply Hfa. rewrite in_app_iff. cbn; auto. }
  assert (G : forall ls, (forall l', In l' ls -> is_choice (List.length sv) (List.length eqs) l' /\ lex l' l) ->
     exists f0, forall f, f0 <= f -> forall l', In l' ls -> loops f eqs sv c l' = Ok []).
  { induction ls as [|l' ls IH]; intros Hls; [exists 0; intros f _ l' []|].
    destruct IH as [a Ha]; [intros; apply Hls; now right|].
    destruct (Hls l' (or_introl eq_refl)) as [Hc1 Hc2]. destruct (finds_loops eqs sv c l' [] Hnd Hd Hc1 (Hbefore l' Hc1 Hc2)) as [b Hb].
    exists (max a b). intros f Hff l'' [<-|Hl']; [apply Hb; lia|apply Ha; [lia|exact Hl']]. }
  destruct (G pre Hpre) as [f0 Hf0]. destruct (finds_loops eqs sv c l found Hnd Hd Hc Hf) as [f2 Hf2].
  pose proof (finds_fine _ _ _ _ _ Hc Hf) as Hfine. rewrite Forall_forall in Hfine.
  destruct (clean_total found) as (vs & Hcl & Hvs).
  { intros v Hv. destruct (Hfine v Hv) as (xs & -> & Hx & Hxl). destruct xs as [|x xs]; [destruct sv; [contradiction|discriminate]|].
    cbn [forallb] in Hx. apply andb_true_iff in Hx as [Hx _]. exists x. split; [destruct xs; reflexivity|].
    unfold finite in Hx. apply negb_true_iff, orb_false_iff in Hx as [_ Hx]. split; [exact Hx|]. destruct x as [| | |]; try reflexivity. discriminate Hx. }
  { destruct sv as [|n1 [|n2 sv']]; [contradiction|left|right]; intros v Hv; destruct (Hfine v Hv) as (xs & -> & _ & Hxl).
    - destruct xs as [|x [|y xs]]; try discriminate. eexists; reflexivity.
    - destruct xs as [|x [|y xs]]; try discriminate. eexists; reflexivity. }
  destruct (clean_inv _ _ _ _ _ _ Hc Hf Hcl) as (reps & Hr & Hsel).
  exists vs, reps. split; [|auto]. apply (solve_outcome _ _ _ _ (max f0 (max f1 f2))); [|discriminate]. rewrite H1 by lia.
  rewrite Epre, comb_loop_nothing. 2:{ intros l' Hin. split; [apply Hpre; exact Hin|]. apply Hf0; [lia|exact Hin]. }
  rewrite comb_loop_step, Hf2 by (exact Hc || lia). cbn [bind]. rewrite Hcl. cbn [bind].
  destruct vs as [|v vs]; [exfalso; now apply Hvs|reflexivity].
Qed.
End Binary64.

Module Examples.
Local Existing Instance NT.
Local Existing Instance ET.
Import PropSolve.Examples.
Lemma XY_distinct : NoDup [X; Y].
Proof. constructor; [intros [E|[]]; discriminate|constructor; [intros []|constructor]]. Qed.
(** Three equations, two unknowns: found by solving the first and the third; the
    first two have no unique solution. *)
Example solved_search : exists l found reps, is_choice 2 3 l /\ finds system [X; Y] ctx0 l found /\
  representatives found reps /\ selection reps [ve [-1000; -1000]%Z].
Proof.
  destruct (c69_answer toy system [X; Y] ctx0 _ XY_distinct solved) as [[E _]|(_ & l & found & reps & H1 & H2 & H3 & H4 & _)]; [discriminate|].
  exists l, found, reps. auto.
Qed.
Lemma system_probe : exists s, misses_by (probe_context ctx0 [X; Y]) (x1000, k 0) s.
Proof. eexists. exists []. apply (outcome_intro 5); [reflexivity|discriminate]. Qed.
Example system_searchable : searchable toy system [X; Y] ctx0.
Proof.
  split; [exact XY_distinct|]. split; [discriminate|]. split; [apply not_defined0|]. split; [cbn; lia|].
  destruct system_probe as [s Hs]. exists x1000, (k 0), [(x1000, k 0); (y1000, k 0)], s. split; [reflexivity|exact Hs].
Qed.
(** So there is an answer, and it is the one computed. *)
Example answered : exists vs reps l found, outcome (AEq system [X; Y]) ctx0 (Ok vs) /\ vs <> [] /\ finds system [X; Y] ctx0 l found /\
  representatives found reps /\ selection reps vs.
Proof.
  destruct (c69_answer toy system [X; Y] ctx0 _ XY_distinct solved) as [[E _]|(_ & l & found & reps & H1 & H2 & H3 & H4 & H5)]; [discriminate|].
  assert (Hne : found <> []).
  { intros ->. inversion H3 as [|f0 r0 v0 H Hx E0|f0 r0 v0 w0 H Hx Hy E0]; subst; [|destruct f0; discriminate|destruct f0; discriminate].
    destruct H4 as [[_ E]|(E & _)]; [discriminate|cbn in E; lia]. }
  destruct (c69_something_found toy system [X; Y] ctx0 l found system_searchable H1 H2 Hne H5) as (vs & reps' & G1 & G2 & G3 & G4).
  exists vs, reps', l, found. auto.
Qed.
(** The same equation twice for two unknowns: the linear equations have no unique
    solution at the first starting point, so nothing is found. *)
Definition xy : AST NT := AOp OAdd (AVar X) (AVar Y).
Definition twice : list (AST NT * AST NT) := [(xy, k 1); (xy, k 1)].
Example twice_empty : outcome (AEq twice [X; Y]) ctx0 (Ok []).
Proof. apply (outcome_intro 20); [apply res_same_ok; vm_compute; reflexivity|discriminate]. Qed.
Example twice_finds_nothing : forall l, is_choice 2 2 l -> finds twice [X; Y] ctx0 l [].
Proof. destruct (c69_answer toy twice [X; Y] ctx0 _ XY_distinct twice_empty) as [[_ H]|(H & _)]; [exact H|contradiction]. Qed.
Lemma twice_probe : exists s, misses_by (probe_context ctx0 [X; Y]) (xy, k 1) s.
Proof. eexists. exists []. apply (outcome_intro 5); [reflexivity|discriminate]. Qed.
Example twice_again : outcome (AEq twice [X; Y]) ctx0 (Ok []).
Proof.
  apply (c69_nothing_found toy); [|exact twice_finds_nothing].
  split; [exact XY_distinct|]. split; [discriminate|]. split; [apply not_defined0|]. split; [cbn; lia|].
  destruct twice_probe as [s Hs]. exists xy, (k 1), [(xy, k 1)], s. split; [reflexivity|exact Hs].
Qed.
Example twice_determined found : finds twice [X; Y] ctx0 [0; 1] found -> found = [].
Proof.
  intros H. apply (c69_search_determined _ _ _ _ _ _ H). apply twice_finds_nothing. split; [reflexivity|].
  split; [repeat constructor|repeat constructor].
Qed.
End Examples.
