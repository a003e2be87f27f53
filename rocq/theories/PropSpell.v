(** * PropSpell: every accepted text spells out the tree it is read as (C58). *)
From Coq Require Import List NArith ZArith Bool Lia Arith String.
From Verif Require Import Base BaseFacts F64 Num Types Helpers Parser EvalTotal ParserBase GrammarSpec ParserSpec
  ParserGrammar ParserGrammar2 ParserGrammar3 ParserTop PropParser SpellSpec.
Import ListNotations.
Local Open Scope list_scope.

Section Spell.
Context {N : Num} {En : Env}.

(** ** The scan finds exactly the operators outside brackets *)
Definition dz (o c : char) (l : str) : Z := (Z.of_nat (count o l) - Z.of_nat (count c l))%Z.
Lemma dz_snoc o c l x : dz o c (l ++ [x]) = (dz o c l + ((if N.eqb x o then 1 else 0) - (if N.eqb x c then 1 else 0)))%Z.
Proof. unfold dz. rewrite !count_app. cbn [count]. destruct (N.eqb x o), (N.eqb x c); lia. Qed.

Definition entry_of (s : str) (e : op_entry) (l w r : str) (k : nat) : Prop :=
  operator_at s l w r k (fst (fst e)) /\ List.length l = snd (fst e) /\ List.length w = snd e.

Lemma symbol_operators c op : get_op_symbol c = Some op -> exists k, In (k, c, op) operators /\ op_index op op_types 0 = Some k.
Proof.
  unfold get_op_symbol. intros H.
  repeat match type of H with (if N.eqb c ?n then _ else _) = _ => destruct (N.eqb_spec c n) as [->|?];
    [injection H as <-; eexists; split; [|reflexivity]; cbn; tauto|] end. discriminate.
Qed.
Lemma operator_lvl s l w r k op : operator_at s l w r k op -> op_index op op_types 0 = Some k.
Proof.
  intros [k' c op' l' r' Hin _ _ _ _|r' _ _|l' r' _ _ _]; [|reflexivity..].
  now apply operators_symbol in Hin.
Qed.

Lemma same_prefix {A} (l p x y : list A) : l ++ x = p ++ y -> List.length l = List.length p -> l = p /\ x = y.
Proof.
  revert p; induction l as [|a l IH]; intros [|b p] H Hl; cbn in Hl; try discriminate; [auto|].
  injection H as -> H. apply IH in H as [-> ->]; [auto|lia].
Qed.

Lemma outside_dz l : outside l <-> dz 40%N 41%N l = 0%Z /\ dz 91%N 93%N l = 0%Z /\ dz 123%N 125%N l = 0%Z.
Proof.
  unfold outside, dz. change (ch "(") with 40%N. change (ch ")") with 41%N. change (ch "[") with 91%N. change (ch "]") with 93%N.
  change (ch "{") with 123%N. change (ch "}") with 125%N. lia.
Qed.

Lemma hidden_touching pre c cs : hidden_mult (pre ++ c :: cs) (List.length pre) (last pre 92%N) c = true <-> touching pre (c :: cs).
Proof.
  unfold hidden_mult, touching. set (h := (_ || _)%bool). split.
  - intros H. destruct h eqn:E; [|discriminate]. destruct (exists_last (l := pre)) as (l' & x & ->).
    { intros ->. unfold h in E. cbn in E. discriminate. }
    exists l', x, c, cs. split; [reflexivity|]. split; [reflexivity|].
    unfold h in E. rewrite last_last in E. rewrite app_length in H. cbn [List.length] in H. split.
    + intros [H1 H2]. destruct (exists_last (l := l')) as (l2 & y & ->); [intros ->; cbn in H1; lia|].
      rewrite last_last in H2. rewrite app_length in H, H1. cbn [List.length] in H, H1.
      destruct (Nat.ltb_spec 2 (List.length l2 + 1 + 1)); [|lia].
      replace (List.length l2 + 1 + 1 - 2) with (List.length l2) in H by lia.
      rewrite <- !app_assoc in H. cbn [app] in H. rewrite nth_error_app2, Nat.sub_diag in H by lia. cbn [nth_error] in H. subst y. discriminate H.
    + apply orb_true_iff in E as [E|E]; apply andb_true_iff in E as [E1 E2].
      * left. split; [exact E1|]. apply orb_true_iff in E2 as [E2|E2]; [|apply N.eqb_eq in E2 as ->; right; cbn; tauto].
        apply orb_true_iff in E2 as [E2|E2]; [|apply N.eqb_eq in E2 as ->; right; cbn; tauto].
        apply orb_true_iff in E2 as [E2|E2]; [now left|apply N.eqb_eq in E2 as ->; right; cbn; tauto].
      * right. apply N.eqb_eq in E1, E2. subst. split; reflexivity.
  - intros (l' & x & d & r' & -> & Heq & Hu & Hcase). injection Heq as <- <-.
    assert (Hh : h = true).
    { unfold h. rewrite last_last. destruct Hcase as [[H1 H2]|[-> ->]]; [|now rewrite orb_true_r]. rewrite H1. cbn [andb].
      destruct H2 as [-> |[<-|[<-|[<-|[]]]]]; try reflexivity; destruct (is_alphabetic _); reflexivity. }
    rewrite Hh. destruct (Nat.ltb_spec 2 (List.length (l' ++ [x]))) as [Hl|]; [|reflexivity]. cbn [andb].
    rewrite app_length in *. cbn [List.length] in *.
    destruct (exists_last (l := l')) as (l2 & y & ->); [intros ->; cbn in Hl; lia|].
    rewrite app_length in *. cbn [List.length] in *. rewrite last_last in Hu.
    replace (List.length l2 + 1 + 1 - 2) with (List.length l2) by lia.
    rewrite <- !app_assoc. cbn [app]. rewrite nth_error_app2, Nat.sub_diag by lia. cbn [nth_error].
    destruct (N.eqb_spec y 95) as [->|]; [|reflexivity]. exfalso. apply Hu. split; [lia|reflexivity].
Qed.

Definition bracket6 (c : char) : Prop := c = 40%N \/ c = 41%N \/ c = 91%N \/ c = 93%N \/ c = 123%N \/ c = 125%N.
Lemma symbol_not_bracket c op : get_op_symbol c = Some op -> ~ bracket6 c.
Proof. intros H [->|[->|[->|[->|[->| ->]]]]]; discriminate H. Qed.

Definition scan_at (full pre cs : str) : list op_entry :=
  scan_ops full cs (List.length pre) (last pre 92%N) (dz 40%N 41%N pre) (dz 91%N 93%N pre) (dz 123%N 125%N pre).
Definition here (pre : str) (c : char) (cs : str) : list op_entry :=
  let full := pre ++ c :: cs in
  let top := (Z.eqb (dz 40%N 41%N pre) 0 && Z.eqb (dz 91%N 93%N pre) 0 && Z.eqb (dz 123%N 125%N pre) 0)%bool in
  (if (top && hidden_mult full (List.length pre) (last pre 92%N) c)%bool then [(OHiddenMult, List.length pre, 0)] else []) ++
  match get_op_symbol c with
  | Some op => if (top && negb (match cs with [] => true | _ => false end))%bool then
        [if (Nat.eqb (List.length pre) 0 && op_eqb op OSub)%bool then (ONeg, List.length pre, 1) else (op, List.length pre, 1)] else []
  | None => []
  end.
Lemma scan_step pre c cs : scan_at (pre ++ c :: cs) pre (c :: cs) = here pre c cs ++ scan_at (pre ++ c :: cs) (pre ++ [c]) cs.
Proof.
  unfold scan_at, here. cbn [scan_ops]. rewrite <- app_assoc. f_equal.
  rewrite !dz_snoc, last_last, app_length. cbn [List.length]. rewrite Nat.add_1_r.
  destruct (N.eqb_spec c 40) as [->|H1]; [cbn [get_op_symbol N.eqb Pos.eqb app]; f_equal; lia|].
  destruct (N.eqb_spec c 41) as [->|H2]; [cbn [get_op_symbol N.eqb Pos.eqb app]; f_equal; lia|].
  destruct (N.eqb_spec c 91) as [->|H3]; [cbn [get_op_symbol N.eqb Pos.eqb app]; f_equal; lia|].
  destruct (N.eqb_spec c 93) as [->|H4]; [cbn [get_op_symbol N.eqb Pos.eqb app]; f_equal; lia|].
  destruct (N.eqb_spec c 123) as [->|H5]; [cbn [get_op_symbol N.eqb Pos.eqb app]; f_equal; lia|].
  destruct (N.eqb_spec c 125) as [->|H6]; [cbn [get_op_symbol N.eqb Pos.eqb app]; f_equal; lia|].
  rewrite !Z.sub_diag, !Z.add_0_r.
  destruct (get_op_symbol c) as [op|]; [|reflexivity]. destruct (_ && negb _)%bool; reflexivity.
Qed.

Lemma top_outside pre : (Z.eqb (dz 40%N 41%N pre) 0 && Z.eqb (dz 91%N 93%N pre) 0 && Z.eqb (dz 123%N 125%N pre) 0)%bool = true <-> outside pre.
Proof. rewrite outside_dz, !andb_true_iff, !Z.eqb_eq. tauto. Qed.

Lemma here_spec pre c cs e : In e (here pre c cs) <->
  exists w r k, entry_of (pre ++ c :: cs) e pre w r k.
Proof.
  unfold here. cbv zeta. rewrite in_app_iff. 
  set (top := (Z.eqb (dz 40%N 41%N pre) 0 && Z.eqb (dz 91%N 93%N pre) 0 && Z.eqb (dz 123%N 125%N pre) 0)%bool).
  assert (Htop : top = true <-> outside pre) by apply top_outside. split.
  - intros [H|H].
    + destruct (top && hidden_mult _ _ _ _)%bool eqn:E; [|easy]. destruct H as [<-|[]].
      apply andb_true_iff in E as [E1 E2]. exists [], (c :: cs), 7. split; [|split; reflexivity].
      cbn [fst snd]. constructor; [reflexivity|now apply Htop|now apply hidden_touching].
    + destruct (get_op_symbol c) as [op|] eqn:Eo; [|easy].
      destruct (top && negb match cs with [] => true | _ => false end)%bool eqn:E; [|easy]. destruct H as [<-|[]].
      apply andb_true_iff in E as [E1 E2]. apply Htop in E1. assert (Hcs : cs <> []) by (intros ->; discriminate).
      destruct (Nat.eqb (List.length pre) 0 && op_eqb op OSub)%bool eqn:En'.
      * apply andb_true_iff in En' as [E3 E4]. apply Nat.eqb_eq in E3. destruct pre; [|discriminate].
        assert (op = OSub) by (destruct op; try discriminate E4; reflexivity). subst op.
        assert (c = 45%N) as ->.
        { unfold get_op_symbol in Eo. repeat match type of Eo with (if N.eqb c ?n then _ else _) = _ => destruct (N.eqb_spec c n) as [->|?]; [try discriminate Eo; try reflexivity|] end. discriminate. }
        exists [45%N], cs, 4. split; [|split; reflexivity]. cbn [fst snd app]. now apply OA_sign.
      * destruct (symbol_operators c op Eo) as (k & Hk & _). exists [c], cs, k. split; [|split; reflexivity]. cbn [fst snd].
        constructor; auto. intros [-> ->]. discriminate En'.
  - intros (w & r & k & Ho & Hl & Hw). destruct e as [[op i] wd]. cbn [fst snd] in *. inversion Ho as [k0 c0 op0 l0 r0 Hin Hs Hout Hr Hns|r0 Hs Hr|l0 r0 Hs Hout Ht]; subst.
    + right. apply app_inv_head in Hs. injection Hs as <- <-. destruct (operators_symbol _ _ _ Hin) as [-> _].
      apply Htop in Hout. rewrite Hout. replace (negb _) with true by (destruct cs; [congruence|reflexivity]). cbn [andb].
      replace (Nat.eqb (List.length pre) 0 && op_eqb op OSub)%bool with false; [now left|].
      symmetry. destruct (Nat.eqb_spec (List.length pre) 0); [|reflexivity]. cbn [andb]. destruct pre; [|discriminate].
      destruct op; try reflexivity. exfalso; apply Hns; auto.
    + right. cbn [app] in Hs. injection Hs as -> <-. change (get_op_symbol (ch "-")) with (Some OSub).
      cbn iota. replace (top && negb _)%bool with true; [now left|]. symmetry. apply andb_true_iff. split; [reflexivity|destruct cs; [congruence|reflexivity]].
    + left. apply app_inv_head in Hs. subst r. apply Htop in Hout. rewrite Hout. apply hidden_touching in Ht. rewrite Ht. now left.
Qed.

Lemma scan_spec full : forall cs pre, full = pre ++ cs -> forall e, In e (scan_at full pre cs) <->
  exists l w r k, entry_of full e l w r k /\ List.length pre <= List.length l.
Proof.
  induction cs as [|c cs IH]; intros pre Hf e.
  - split; [easy|]. intros (l & w & r & k & (Ho & _ & _) & Hle). rewrite app_nil_r in Hf. subst full.
    inversion Ho as [k0 c0 op0 l0 r0 Hin Hs Hout Hr Hns|r0 Hs Hr|l0 r0 Hs Hout Ht]; subst.
    + rewrite app_length in Hle. cbn in Hle. lia.
    + cbn in Hle. lia.
    + destruct Ht as (? & ? & ? & ? & _ & -> & _). rewrite app_length in Hle. cbn in Hle. lia.
  - rewrite Hf, scan_step, <- Hf, in_app_iff, here_spec, <- Hf, IH by (rewrite Hf, <- app_assoc; reflexivity). split.
    + intros [(w & r & k & H)|(l & w & r & k & H & Hle)]; [exists pre, w, r, k; auto|]. exists l, w, r, k. rewrite app_length in Hle. split; [exact H|lia].
    + intros (l & w & r & k & H & Hle). destruct (Nat.eq_dec (List.length l) (List.length pre)) as [Heq|].
      * left. assert (l = pre) as ->; [|eauto]. destruct H as [Ho _].
        assert (Hs : exists t, full = l ++ t).
        { inversion Ho; subst; eauto. }
        destruct Hs as [t Hs]. rewrite Hf in Hs. symmetry in Hs. now apply same_prefix in Hs.
      * right. exists l, w, r, k. rewrite app_length. cbn [List.length]. split; [exact H|lia].
Qed.

Lemma scan_sorted full : forall cs pre, full = pre ++ cs -> forall A e B, scan_at full pre cs = A ++ e :: B ->
  (forall x, In x A -> snd (fst x) <= snd (fst e)) /\ (forall x, In x B -> snd (fst e) <= snd (fst x)).
Proof.
  induction cs as [|c cs IH]; intros pre Hf A e B HE; [destruct A; discriminate|].
  assert (Hlow : forall x, In x (scan_at full (pre ++ [c]) cs) -> List.length pre < snd (fst x)).
  { intros x Hx. apply scan_spec in Hx as (l & w & r & k & (_ & <- & _) & Hle); [|rewrite Hf, <- app_assoc; reflexivity].
    rewrite app_length in Hle. cbn in Hle. lia. }
  assert (Hh : forall x, In x (here pre c cs) -> snd (fst x) = List.length pre).
  { intros x Hx. apply here_spec in Hx as (w & r & k & (_ & H & _)). auto. }
  rewrite Hf, scan_step, <- Hf in HE. specialize (IH (pre ++ [c])). rewrite <- app_assoc in IH. specialize (IH Hf).
  revert HE Hh. generalize (here pre c cs) as H. intros H HE Hh.
  revert A HE. induction H as [|y H IHH]; intros A HE; [now apply IH|].
  destruct A as [|y' A]; cbn [app] in HE; injection HE as <- HE.
  - split; [easy|]. intros x Hx. rewrite (Hh y (or_introl eq_refl)). rewrite <- HE in Hx. apply in_app_iff in Hx as [Hx|Hx].
    + rewrite (Hh x (or_intror Hx)). lia.
    + apply Hlow in Hx. lia.
  - apply IHH in HE as HE2; [|intros; apply Hh; now right]. destruct HE2 as [G1 G2]. split; [|exact G2].
    intros x [<-|Hx]; [|auto]. rewrite (Hh y (or_introl eq_refl)).
    assert (He : In e (H ++ scan_at full (pre ++ [c]) cs)) by (rewrite HE; apply in_app_iff; right; now left).
    apply in_app_iff in He as [He|He]; [rewrite (Hh e (or_intror He)); lia|apply Hlow in He; lia].
Qed.

(** ** The operator chosen is the root *)
Lemma min_level ops : ops <> [] -> Forall (ge 0) ops -> exists k, Forall (ge k) ops /\ exists e, In e ops /\ lvl e = Some k.
Proof.
  intros Hne H. induction H as [|x ops Hx H IH]; [congruence|]. destruct Hx as (j & Hj & _).
  destruct ops as [|y ops].
  - exists j. split; [repeat constructor; now exists j|]. exists x. split; [now left|exact Hj].
  - destruct IH as (k & Hk & e & He1 & He2); [discriminate|].
    destruct (le_lt_dec j k).
    + exists j. split; [constructor; [exists j; auto|eapply Forall_impl; [|exact Hk]; intros z; apply ge_mono; lia]|]. exists x. split; [now left|exact Hj].
    + exists k. split; [constructor; [exists j; split; [exact Hj|lia]|exact Hk]|]. exists e. split; [now right|exact He2].
Qed.
Lemma first_level k ops e : Forall (ge k) ops -> In e ops -> lvl e = Some k ->
  exists A x B, ops = A ++ x :: B /\ lvl x = Some k /\ Forall (ge (S k)) A /\ Forall (ge k) B.
Proof.
  induction ops as [|y ops IH]; intros H Hin He; [easy|]. inversion H as [|? ? (j & Hj1 & Hj2) H']; subst.
  destruct (Nat.eq_dec j k) as [->|].
  - exists [], y, ops. repeat split; auto.
  - destruct Hin as [->|Hin]; [congruence|]. destruct (IH H' Hin He) as (A & x & B & -> & H1 & H2 & H3).
    exists (y :: A), x, B. repeat split; auto. constructor; [exists j; split; [exact Hj1|lia]|exact H2].
Qed.
Lemma select_spec ops : ops <> [] -> Forall (ge 0) ops -> exists A e B k,
  ops = A ++ e :: B /\ select_op ops = Some e /\ lvl e = Some k /\ Forall (ge k) ops /\
  if left_assoc k then Forall (ge (S k)) B else Forall (ge (S k)) A.
Proof.
  intros Hne H0. destruct (min_level ops Hne H0) as (k & Hk & e & He1 & He2).
  destruct (left_assoc k) eqn:El.
  - destruct (first_level k (rev ops) e) as (A & x & B & HE & H1 & H2 & H3); [now apply Forall_rev|now apply in_rev in He1|exact He2|].
    apply (f_equal (@rev _)) in HE. rewrite rev_involutive, rev_app_distr in HE. cbn [rev] in HE. rewrite <- app_assoc in HE. cbn [app] in HE.
    exists (rev B), x, (rev A), k. rewrite El. split; [exact HE|]. apply Forall_rev in H2. apply Forall_rev in H3.
    split; [rewrite HE; now apply (select_left k)|]. auto.
  - destruct (first_level k ops e Hk He1 He2) as (A & x & B & HE & H1 & H2 & H3).
    exists A, x, B, k. rewrite El. split; [exact HE|]. split; [rewrite HE; now apply (select_right k)|]. auto.
Qed.

Lemma scan_ge0 s : Forall (ge 0) (scan_at s [] s).
Proof.
  apply Forall_forall. intros e He. apply (scan_spec s s [] eq_refl) in He as (l & w & r & k & (Ho & _ & _) & _).
  apply operator_lvl in Ho. exists k. split; [exact Ho|lia].
Qed.

Lemma root_selected s e : select_op (scan_ops s s 0 92%N 0 0 0) = Some e ->
  exists l w r, root_at s l w r (fst (fst e)) /\ List.length l = snd (fst e) /\ List.length w = snd e /\ s = l ++ w ++ r.
Proof.
  change (scan_ops s s 0 92%N 0 0 0) with (scan_at s [] s). intros Hsel.
  assert (Hne : scan_at s [] s <> []).
  { intros E. rewrite E in Hsel. discriminate. }
  destruct (select_spec _ Hne (scan_ge0 s)) as (A & x & B & k & HE & Hs & Hk & Hall & Hord).
  rewrite Hsel in Hs. injection Hs as <-.
  assert (Hin : In e (scan_at s [] s)) by (rewrite HE; apply in_app_iff; right; now left).
  apply (scan_spec s s [] eq_refl) in Hin as (l & w & r & k0 & (Ho & Hl & Hw) & _).
  assert (k0 = k) by (apply operator_lvl in Ho; unfold lvl in Hk; congruence). subst k0.
  exists l, w, r. split; [|split; [exact Hl|split; [exact Hw|]]].
  2:{ inversion Ho; subst; reflexivity. }
  exists k. split; [exact Ho|]. intros l' w' r' k' op' Ho'.
  assert (Hin' : In (op', List.length l', List.length w') (scan_at s [] s)).
  { apply (scan_spec s s [] eq_refl). exists l', w', r', k'. repeat split; auto. cbn; lia. }
  assert (Hlv : lvl (op', List.length l', List.length w') = Some k') by (apply operator_lvl in Ho'; exact Ho').
  split.
  - rewrite Forall_forall in Hall. destruct (Hall _ Hin') as (j & Hj1 & Hj2). congruence.
  - intros ->. destruct (scan_sorted s s [] eq_refl A e B HE) as [S1 S2].
    rewrite HE in Hin'. apply in_app_iff in Hin'. destruct (left_assoc k).
    + destruct Hin' as [Hin'|[Heq|Hin']].
      * apply S1 in Hin'. cbn [fst snd] in Hin'. lia.
      * rewrite Heq in Hl. cbn [fst snd] in Hl. lia.
      * rewrite Forall_forall in Hord. destruct (Hord _ Hin') as (j & Hj1 & Hj2). rewrite Hlv in Hj1. injection Hj1; lia.
    + destruct Hin' as [Hin'|[Heq|Hin']].
      * rewrite Forall_forall in Hord. destruct (Hord _ Hin') as (j & Hj1 & Hj2). rewrite Hlv in Hj1. injection Hj1; lia.
      * rewrite Heq in Hl. cbn [fst snd] in Hl. lia.
      * apply S2 in Hin'. cbn [fst snd] in Hin'. lia.
Qed.
Lemma root_none s : select_op (scan_ops s s 0 92%N 0 0 0) = None -> forall l w r k op, ~ operator_at s l w r k op.
Proof.
  change (scan_ops s s 0 92%N 0 0 0) with (scan_at s [] s). intros Hsel l w r k op Ho.
  assert (Hin : In (op, List.length l, List.length w) (scan_at s [] s)).
  { apply (scan_spec s s [] eq_refl). exists l, w, r, k. repeat split; auto. cbn; lia. }
  destruct (select_spec (scan_at s [] s)) as (A & x & B & k' & _ & Hs & _); [intros E; now rewrite E in Hin|apply scan_ge0|]. congruence.
Qed.

(** ** Every accepted text spells its tree *)
Lemma vector_not_empty s v : spells s (AVector v) -> v <> [].
Proof.
  intros H. inversion H as [| | |a _ Ha]; subst. inversion Ha as [| | | | | |ss aa Hne Hf _| | | |]; subst.
  intros ->. inversion Hf; subst. congruence.
Qed.

Lemma transpose_exists (vs : list (list (AST N))) r c : shape vs r c ->
  exists tr, shape tr c r /\ transpose_of vs tr.
Proof.
  intros [S1 S2]. exists (map (fun i => map (fun row => nth i row (AScalar n0)) vs) (seq 0 c)). split; [split|].
  - now rewrite map_length, seq_length.
  - apply Forall_forall. intros x Hx. apply in_map_iff in Hx as (i & <- & _). now rewrite map_length.
  - intros i j. rewrite nth_error_map.
    destruct (Nat.lt_ge_cases i c) as [L|L].
    + rewrite (nth_error_nth' (seq 0 c) 0) by now rewrite seq_length. rewrite seq_nth by assumption. cbn [option_map Nat.add].
      rewrite nth_error_map. destruct (nth_error vs j) as [row|] eqn:E; [|reflexivity]. cbn [option_map].
      symmetry. apply nth_error_nth'. apply nth_error_In in E. rewrite Forall_forall in S2. now rewrite (S2 row E).
    + rewrite (proj2 (nth_error_None (seq 0 c) i)) by now rewrite seq_length. cbn [option_map].
      destruct (nth_error vs j) as [row|] eqn:E; [|reflexivity]. symmetry. apply nth_error_None.
      apply nth_error_In in E. rewrite Forall_forall in S2. now rewrite (S2 row E).
Qed.

Section Body.
Variable rec : str -> res ParserError (AST N).
Hypothesis Hrec : forall s a, ~ bad s -> rec s = Ok a -> spells s a /\ psum s = 0%Z.

Lemma not_bad_piece s t : piece s t -> ~ bad t -> ~ bad s.
Proof. intros H1 H2 H3. apply H2. now apply (bad_piece s). Qed.

Lemma mapM_spells ss aa : (forall s, In s ss -> ~ bad s) -> mapM rec ss = Ok aa ->
  Forall2 spells ss aa /\ Forall (fun s => psum s = 0%Z) ss.
Proof.
  intros Hb H. apply mapM_ok_iff in H. induction H as [|s a ss aa Hs H IH]; [split; constructor|].
  destruct (Hrec s a) as [H1 H2]; [apply Hb; now left|exact Hs|]. destruct IH as [H3 H4]; [intros; apply Hb; now right|].
  split; constructor; assumption.
Qed.
Lemma args_not_bad inner : ~ bad inner -> forall s, In s (get_args inner) -> ~ bad s.
Proof. intros H s Hs. apply get_args_piece in Hs. now apply (not_bad_piece s inner). Qed.
Lemma psum_join ss : psum (join [44%N] ss) = fold_right Z.add 0%Z (map psum ss).
Proof.
  induction ss as [|s [|t ss] IH]; [reflexivity|cbn [join map fold_right]; lia|].
  change (join [44%N] (s :: t :: ss)) with (s ++ [44%N] ++ join [44%N] (t :: ss)). rewrite !psum_app, IH. cbn [map fold_right psum].
  change (dp 44%N) with 0%Z. lia.
Qed.
Lemma psum_join_0 ss : Forall (fun s => psum s = 0%Z) ss -> psum (join [44%N] ss) = 0%Z.
Proof. intros H. rewrite psum_join. induction H as [|s ss Hs H IH]; [reflexivity|]. cbn [map fold_right]. lia. Qed.

(** The text after a prefix with one open parenthesis: what is inside, and
    the last character. *)
Lemma prefix_inner s p inner : ~ bad s -> psum s = 0%Z -> starts_with s p = true -> psum p = 1%Z ->
  slice s (List.length p) (List.length s - 1) = @Ok ParserError _ inner ->
  exists z, s = p ++ inner ++ [z] /\ ~ bad inner /\ (psum inner = 0%Z -> z = 41%N).
Proof.
  intros Hb Hs Hst Hp Hsl. apply starts_with_app in Hst as (t & ->). rewrite psum_app, Hp in Hs.
  destruct (exists_last (l := t)) as (u & z & ->); [intros ->; cbn in Hs; lia|].
  rewrite slice_inner in Hsl. injection Hsl as <-. exists z. split; [reflexivity|]. split.
  - eapply not_bad_piece; [|exact Hb]. apply piece_mid.
  - intros H0. rewrite psum_app, H0 in Hs. cbn [psum] in Hs. unfold dp in Hs.
    destruct (N.eqb z 40); [lia|]. destruct (N.eqb_spec z 41); [assumption|lia].
Qed.

Lemma builtin_spells s op p a : ~ bad s -> psum s = 0%Z -> In (op, p) function_look_up -> starts_with s p = true ->
  parse_builtin rec s op p = Ok a -> spells_atom spells s a.
Proof.
  intros Hb Hs Hin Hst H. pose proof (psum_prefix_ops _ _ Hin) as [_ Hp]. unfold parse_builtin in H.
  apply bind_ok in H as (inner & Hsl & H). destruct (prefix_inner _ _ _ Hb Hs Hst Hp Hsl) as (z & -> & Hbi & Hz).
  destruct (op_eqb op ORoot) eqn:Er.
  - assert (op = ORoot) as -> by (destruct op; try discriminate Er; reflexivity).
    assert (p = lit "root(") as ->.
    { cbn in Hin. repeat (destruct Hin as [Hin|Hin]; [try discriminate Hin; injection Hin as <-; reflexivity|]). easy. }
    destruct (get_args inner) as [|x [|y [|w l]]] eqn:Ea; try discriminate.
    apply bind_ok in H as (l & Hl & H). apply bind_ok in H as (r & Hr & H). injection H as <-.
    pose proof (args_not_bad inner Hbi) as Hn. rewrite Ea in Hn.
    apply Hrec in Hl as [L1 L2]; [|apply Hn; cbn; auto]. apply Hrec in Hr as [R1 R2]; [|apply Hn; cbn; auto].
    pose proof (get_args_join inner) as Hj. rewrite Ea in Hj. subst inner. rewrite Hz.
    + change (join [44%N] [x; y]) with (x ++ [44%N] ++ y). rewrite <- app_assoc. cbn [app]. now apply SA_root.
    + now apply psum_join_0; repeat constructor.
  - apply bind_ok in H as (l & Hl & H). injection H as <-. apply Hrec in Hl as [L1 L2]; [|exact Hbi]. rewrite (Hz L2).
    assert (exists f, In (op, f) functions /\ p = lit f ++ [40%N]) as (f & Hf & ->).
    { cbn in Hin. repeat (destruct Hin as [Hin|Hin]; [injection Hin as <- <-; cbn in Er; first [discriminate Er|eexists; split; [unfold functions; cbn [In]; repeat (first [left; reflexivity|right])|reflexivity]]|]). easy. }
    rewrite <- app_assoc. cbn [app]. now apply (SA_function spells op f).
Qed.

Lemma after_split c s t : after c s = Some t -> s = before c s ++ c :: t.
Proof.
  induction s as [|x s IH]; cbn; [discriminate|]. destruct (N.eqb_spec x c) as [->|]; [intros [= ->]; reflexivity|].
  intros H. cbn [app]. now rewrite <- IH.
Qed.
Lemma before_rest c s : exists rest, s = before c s ++ rest /\ (rest = [] \/ exists t, rest = c :: t).
Proof.
  destruct (contains s c) eqn:E.
  - destruct (contains_split _ _ E) as (t & Ht). exists (c :: t). eauto.
  - exists []. rewrite before_none, app_nil_r; [auto|]. intros Hin. apply contains_In in Hin. congruence.
Qed.
Lemma entry_spells e x : ~ bad e -> parse_eq_entry rec e = Ok x -> spells_entry spells e x.
Proof.
  intros Hb H. unfold parse_eq_entry in H. destruct (contains e 61%N) eqn:Ec; cbn [negb] in H.
  - apply bind_ok in H as (t & Ht & H). apply unwrap_ok in Ht. pose proof (after_split _ _ _ Ht) as Hs.
    apply after_piece in Ht. destruct (before_rest 61%N t) as (rest & Hrest & Hcase).
    assert (B1 : ~ bad (before 61%N e)) by (eapply not_bad_piece; [apply before_piece|exact Hb]).
    assert (B2 : ~ bad (before 61%N t)) by (eapply not_bad_piece; [apply before_piece|]; now apply (not_bad_piece t e)).
    rewrite Hs. rewrite Hrest.
    destruct (Nat.leb (byte_len (before 61%N t)) (byte_len (before 61%N e))) eqn:El.
    + apply bind_ok in H as (l & Hl & H). apply bind_ok in H as (r & Hr & H). injection H as <-.
      apply Hrec in Hl as [L1 _]; [|exact B1]. apply Hrec in Hr as [R1 _]; [|exact B2].
      pose proof (SE_equation spells (before 61%N e) (before 61%N t) rest l r L1 R1 (before_no _ _) (before_no _ _) Hcase) as G.
      now rewrite El in G.
    + apply bind_ok in H as (l & Hl & H). apply bind_ok in H as (r & Hr & H). injection H as <-.
      apply Hrec in Hl as [L1 _]; [|exact B2]. apply Hrec in Hr as [R1 _]; [|exact B1].
      pose proof (SE_equation spells (before 61%N e) (before 61%N t) rest r l R1 L1 (before_no _ _) (before_no _ _) Hcase) as G.
      now rewrite El in G.
  - injection H as <-. constructor. intros Hin. change (ch "=") with 61%N in Hin. apply contains_In in Hin. congruence.
Qed.

Lemma unbalanced_psum x : psum x <> 0%Z -> unbalanced x.
Proof. rewrite psum_count. unfold unbalanced. lia. Qed.

Lemma advanced_spells s op p a : ~ bad s -> psum s = 0%Z -> In (op, p) advanced_look_up -> starts_with s p = true ->
  parse_advanced rec s op p = Ok a -> spells_atom spells s a.
Proof.
  intros Hb Hs Hin Hst H. pose proof (psum_prefix_adv _ _ Hin) as [_ Hp]. unfold parse_advanced in H.
  apply bind_ok in H as (inner & Hsl & H). destruct (prefix_inner _ _ _ Hb Hs Hst Hp Hsl) as (z & -> & Hbi & Hz).
  pose proof (args_not_bad inner Hbi) as Hn. pose proof (get_args_join inner) as Hj. pose proof (get_args_nonempty inner) as Hne.
  cbn in Hin. destruct Hin as [Hin|[Hin|[Hin|[]]]]; injection Hin as <- <-; cbv zeta in H.
  - destruct (get_args inner) as [|f [|x [|l [|u [|? ?]]]]] eqn:Ea; try discriminate.
    apply bind_ok in H as (pf & Hf & H). apply bind_ok in H as (pl & Hl & H). apply bind_ok in H as (pu & Hu & H). injection H as <-.
    apply Hrec in Hf as [F1 F2]; [|apply Hn; cbn; auto]. apply Hrec in Hl as [L1 L2]; [|apply Hn; cbn; auto].
    apply Hrec in Hu as [U1 U2]; [|apply Hn; cbn; auto].
    subst inner. assert (Hzz : z = ch ")" \/ unbalanced x).
    { destruct (Z.eq_dec (psum x) 0) as [E|E]; [left|right; now apply unbalanced_psum]. apply Hz. apply psum_join_0. repeat constructor; auto. }
    change (join [44%N] [f; x; l; u]) with (f ++ [44%N] ++ x ++ [44%N] ++ l ++ [44%N] ++ u). rewrite <- !app_assoc. cbn [app].
    now apply SA_integral.
  - destruct (get_args inner) as [|f [|x [|l [|? ?]]]] eqn:Ea; try discriminate.
    apply bind_ok in H as (pf & Hf & H). apply bind_ok in H as (pl & Hl & H). injection H as <-.
    apply Hrec in Hf as [F1 F2]; [|apply Hn; cbn; auto]. apply Hrec in Hl as [L1 L2]; [|apply Hn; cbn; auto].
    subst inner. assert (Hzz : z = ch ")" \/ unbalanced x).
    { destruct (Z.eq_dec (psum x) 0) as [E|E]; [left|right; now apply unbalanced_psum]. apply Hz. apply psum_join_0. repeat constructor; auto. }
    change (join [44%N] [f; x; l]) with (f ++ [44%N] ++ x ++ [44%N] ++ l). rewrite <- !app_assoc. cbn [app].
    now apply SA_derivative.
  - apply bind_ok in H as (es & He & H). injection H as <-. apply mapM_ok_iff in He.
    rewrite <- Hj. apply (SA_equations spells (get_args inner) es z Hne).
    + clear -He Hn Hrec. induction He as [|e x l xs Hx H IH]; constructor; [apply entry_spells; [apply Hn; now left|exact Hx]|apply IH; intros; apply Hn; now right].
    + destruct (Z.eq_dec (psum inner) 0) as [E|E]; [left; now apply Hz|right].
      destruct (Exists_dec (fun e => psum e <> 0%Z) (get_args inner)) as [G|G].
      * intros e. destruct (Z.eq_dec (psum e) 0); [right|left]; lia.
      * apply Exists_exists in G as (e & G1 & G2). exists e. split; [exact G1|now apply unbalanced_psum].
      * exfalso. apply E. rewrite <- Hj. apply psum_join_0. apply Forall_forall. intros e He'.
        destruct (Z.eq_dec (psum e) 0) as [|G2]; [assumption|]. exfalso. apply G. apply Exists_exists. eauto.
Qed.

Lemma last_snoc (s : str) c0 cl t : s = c0 :: t -> last s c0 = cl -> c0 <> cl -> exists u, s = c0 :: u ++ [cl].
Proof.
  intros -> Hl Hne. destruct t as [|x t]; [cbn in Hl; congruence|].
  destruct (exists_last (l := x :: t)) as (u & z & E); [discriminate|]. rewrite E in Hl |- *.
  change (c0 :: u ++ [z]) with ((c0 :: u) ++ [z]) in Hl. rewrite last_last in Hl. subst z. eauto.
Qed.

Lemma call_spells s c0 t a : ~ bad s -> psum s = 0%Z -> select_op (scan_ops s s 0 92%N 0 0 0) = None -> s = c0 :: t -> c0 <> 40%N -> contains s 40%N = true -> last s c0 = 41%N ->
  parse_call rec s = Ok a -> spells_atom spells s a.
Proof.
  intros Hb Hps Hsel Hs H0 Hc Hl H. unfold parse_call in H. cbv zeta in H.
  destruct (contains_split _ _ Hc) as (u & Hu). set (f := before 40%N s) in *.
  assert (Hu2 : exists v, u = v ++ [41%N]).
  { destruct (exists_last (l := u)) as (v & z & ->).
    - intros ->. rewrite Hu, last_last in Hl. discriminate.
    - exists v. f_equal. f_equal. rewrite Hu in Hl. change (f ++ 40%N :: v ++ [z]) with (f ++ (40%N :: v) ++ [z]) in Hl.
      rewrite app_assoc, last_last in Hl. exact Hl. }
  destruct Hu2 as (v & ->).
  assert (Hbf : ~ foreign f).
  { intros Hf. apply Hb. exists s. split; [apply piece_refl|]. repeat split; auto. left. exists f, v. split; [exact Hu|]. split; [apply before_no|exact Hf]. }
  rewrite (byte_len_ascii f Hbf) in H. apply bind_ok in H as (inner & Hsl & H).
  assert (Hsl' : inner = v).
  { assert (Hs2 : s = (f ++ [40%N]) ++ v ++ [41%N]) by (rewrite <- app_assoc; exact Hu).
    replace (List.length f + 1) with (List.length (f ++ [40%N])) in Hsl by (rewrite app_length; reflexivity).
    rewrite Hs2, slice_inner in Hsl. congruence. }
  subst inner. apply bind_ok in H as (args & Ha & H). apply bind_ok in H as (ok & Hok & H). destruct ok; [|discriminate]. injection H as <-.
  assert (Hbv : ~ bad v).
  { eapply not_bad_piece; [|exact Hb]. rewrite Hu. exists (f ++ [40%N]), [41%N]. now rewrite <- app_assoc. }
  apply mapM_spells in Ha as [A1 _]; [|now apply args_not_bad].
  rewrite Hu. rewrite <- (get_args_join v) at 1. apply SA_call; [now apply valid_rule|apply get_args_nonempty|exact A1].
Qed.

Lemma value_spells s a : ~ bad s -> psum s = 0%Z -> select_op (scan_ops s s 0 92%N 0 0 0) = None ->
  parse_value rec s = Ok a -> spells_atom spells s a.
Proof.
  intros Hb Hps Hsel H. unfold parse_value in H. destruct (negb (contains s 91%N)).
  { destruct (nparse s) eqn:E; [|discriminate]. injection H as <-. now constructor. }
  destruct (Nat.leb_spec 2 (byte_len s)) as [Hl|]; [|discriminate].
  apply bind_ok in H as (c0 & Hc & H). apply idx_ok in Hc. destruct s as [|c t]; [discriminate|]. cbn in Hc. injection Hc as ->.
  destruct (N.eqb_spec c0 91) as [->|]; cbn [bind] in H; [|discriminate].
  assert (Hf : ~ foreign (@cons char 91%N t)).
  { intros (c & Hin & Hc). apply Hb. exists (91%N :: t). split; [apply piece_refl|]. repeat split; auto. right. exists t. split; [reflexivity|].
    destruct Hin as [<-|Hin]; [discriminate Hc|]. now exists c. }
  rewrite (byte_len_ascii _ Hf) in H, Hl.
  destruct (exists_last (l := t)) as (u & z & ->); [intros ->; cbn in Hl; lia|].
  apply bind_ok in H as (br & Hbr & H). destruct br; [|discriminate]. apply bind_ok in Hbr as (cl & Hcl & Hbr).
  assert (Hbr' : N.eqb cl 93 = true) by congruence. clear Hbr. apply N.eqb_eq in Hbr' as ->.
  apply idx_ok in Hcl. cbn [List.length] in Hcl. rewrite app_length in Hcl. cbn [List.length] in Hcl.
  replace (S (List.length u + 1) - 1) with (S (List.length u)) in Hcl by lia. cbn [nth_error] in Hcl.
  rewrite nth_error_app2, Nat.sub_diag in Hcl by lia. cbn [nth_error] in Hcl. injection Hcl as ->.
  apply bind_ok in H as (inner & Hsl & H).
  change (91%N :: u ++ [93%N]) with ([91%N] ++ u ++ [93%N]) in Hsl.
  change 1 with (List.length [91%N]) in Hsl at 1. rewrite slice_inner in Hsl. injection Hsl as <-. cbv zeta in H.
  assert (Hbu : ~ bad u). { eapply not_bad_piece; [|exact Hb]. now exists [91%N], [93%N]. }
  destruct (match get_args u with [] => true | [] :: _ => true | _ => false end); [discriminate|].
  apply bind_ok in H as (out & Ho & H). apply mapM_spells in Ho as [O1 _]; [|now apply args_not_bad].
  rewrite <- (get_args_join u). pose proof (get_args_nonempty u) as Hne. revert O1 Hne. generalize (get_args u) as ss. intros ss O1 Hne.
  set (is_vec := forallb _ out) in H. set (is_mat := forallb _ out) in H.
  destruct (is_vec && is_mat)%bool eqn:E1.
  - injection H as <-. apply andb_true_iff in E1 as [E1 E2]. unfold is_vec, is_mat in *. rewrite forallb_forall in E1, E2.
    apply SA_vector; [exact Hne|exact O1|]. apply Forall_forall. intros x Hx. specialize (E1 x Hx). specialize (E2 x Hx).
    destruct x; auto; discriminate.
  - destruct (is_mat && negb is_vec)%bool; [|discriminate].
    apply bind_ok in H as (m & Hm & H). apply mapM_ok_iff in Hm.
    assert (out = map AVector m) as ->.
    { clear -Hm. induction Hm as [|x y l ys Hx H IH]; [reflexivity|]. cbn [map]. destruct x; try discriminate Hx. injection Hx as ->. now f_equal. }
    apply bind_ok in H as (sz & Hsz & H). apply bind_ok in Hsz as (r0 & Hr0 & Hsz). injection Hsz as <-. apply idx_ok in Hr0.
    destruct m as [|r0' m']; [discriminate|]. cbn in Hr0. injection Hr0 as ->. set (m := r0 :: m') in *.
    destruct (forallb (fun r => Nat.eqb (List.length r) (List.length r0)) m) eqn:Ef; cbn [negb] in H; [|discriminate].
    assert (Hsh : shape m (List.length m) (List.length r0)).
    { split; [reflexivity|]. apply Forall_forall. intros r Hr. rewrite forallb_forall in Ef. now apply Nat.eqb_eq, Ef. }
    assert (Hpos : 0 < List.length r0).
    { unfold m in O1. cbn [map] in O1. inversion O1 as [|? ? ? ? Hv _]; subst. apply vector_not_empty in Hv. destruct r0; [congruence|cbn; lia]. }
    assert (Hpos' : 0 < List.length m) by (unfold m; cbn; lia).
    destruct row_major eqn:Erm.
    + injection H as <-. apply (SA_matrix spells ss m _ (List.length m) (List.length r0)); auto. now rewrite Erm.
    + apply bind_ok in H as (tr & Htr & H). injection H as <-.
      destruct (transpose_exists m _ _ Hsh) as (tr' & T1 & T2).
      rewrite (transpose_lit_eq m tr' (List.length m) (List.length r0)) in Htr by assumption. injection Htr as <-.
      apply (SA_matrix spells ss m _ (List.length m) (List.length r0)); auto. now rewrite Erm.
Qed.

Lemma try_prefix_spells {A} s (l : list (A * str)) k o a :
  (forall x p, In (x, p) l -> starts_with s p = true -> k x p = Ok a -> spells_atom spells s a) ->
  (o = Ok a -> spells_atom spells s a) -> try_prefix s l k o = Ok a -> spells_atom spells s a.
Proof.
  induction l as [|[x p] l IH]; cbn [try_prefix]; intros H1 H2 H; [auto|].
  destruct (starts_with s p) eqn:E; [eapply H1; eauto; now left|]. apply IH; auto. intros; eapply H1; eauto. now right.
Qed.

Lemma atom_spells s c0 t a : ~ bad s -> s = c0 :: t -> psum s = 0%Z -> select_op (scan_ops s s 0 92%N 0 0 0) = None -> parse_atom rec s c0 (last s c0) = Ok a -> spells_atom spells s a.
Proof.
  intros Hb Hs Hp Hsel. unfold parse_atom. apply try_prefix_spells.
  { intros x p Hin Hst. now apply builtin_spells. }
  apply try_prefix_spells.
  { intros x p Hin Hst. now apply advanced_spells. }
  destruct (contains s 40%N && negb (N.eqb c0 40) && N.eqb (last s c0) 41)%bool eqn:E.
  { apply andb_true_iff in E as [E E3]. apply andb_true_iff in E as [E1 E2]. apply negb_true_iff, N.eqb_neq in E2. apply N.eqb_eq in E3.
    now apply (call_spells s c0 t). }
  destruct (is_alphabetic c0 || N.eqb c0 92)%bool.
  { intros H. apply bind_ok in H as (ok & Hok & H). destruct ok; [|discriminate]. injection H as <-. apply SA_variable. now apply valid_rule. }
  destruct (N.eqb c0 123 && N.eqb (last s c0) 125)%bool eqn:E2; [|now apply value_spells].
  apply andb_true_iff in E2 as [E2 E3]. apply N.eqb_eq in E2, E3. destruct (last_snoc s c0 125%N t Hs E3) as (u & Hu); [subst c0; discriminate|].
  intros H. apply bind_ok in H as (inner & Hsl & H). subst c0. rewrite Hu in Hsl.
  change (123%N :: u ++ [125%N]) with ([123%N] ++ u ++ [125%N]) in Hsl. change 1 with (List.length [123%N]) in Hsl at 1.
  rewrite slice_inner in Hsl. injection Hsl as <-. apply bind_ok in H as (es & He & H). injection H as <-.
  apply mapM_spells in He as [H1 _].
  - rewrite Hu, <- (get_args_join u) at 1. apply SA_list; [apply get_args_nonempty|exact H1].
  - apply args_not_bad. eapply not_bad_piece; [|exact Hb]. rewrite Hu. now exists [123%N], [125%N].
Qed.

Lemma scan_wraps u : forall d chk, (1 <= d)%Z -> paren_scan (u ++ [41%N]) d chk = (0%Z, true) ->
  (forall p q, u = p ++ q -> (1 <= d + psum p)%Z) /\ (d + psum u = 1)%Z.
Proof.
  induction u as [|x u IH]; intros d chk Hd H.
  - cbn in H. injection H as H _. split; [|cbn; lia]. intros [|? ?] q E; [cbn; lia|discriminate].
  - cbn [app paren_scan] in H. destruct (N.eqb_spec x 40) as [->|Hx].
    + cbn [N.eqb Pos.eqb] in H. apply IH in H as [H1 H2]; [|lia]. split; [|cbn [psum]; change (dp 40%N) with 1%Z; lia].
      intros [|y p] q E; [cbn; lia|]. injection E as <- E. specialize (H1 p q E). cbn [psum]. change (dp 40%N) with 1%Z. lia.
    + destruct (N.eqb_spec x 41) as [->|Hx2].
      * assert (Hy : exists y r, u ++ [41%N] = y :: r) by (destruct u; cbn; eauto). destruct Hy as (y0 & r0 & Hy).
        rewrite Hy in H. cbn [negb] in H. rewrite andb_true_r in H. rewrite <- Hy in H. destruct (Z.eqb_spec (d - 1) 0).
        { exfalso. pose proof (paren_scan_false (u ++ [41%N]) (d - 1)) as G. rewrite H in G. discriminate. }
        apply IH in H as [H1 H2]; [|lia]. split; [|cbn [psum]; change (dp 41%N) with (-1)%Z; lia].
        intros [|y p] q E; [cbn; lia|]. injection E as <- E. specialize (H1 p q E). cbn [psum]. change (dp 41%N) with (-1)%Z. lia.
      * apply IH in H as [H1 H2]; [|lia]. assert (Hdp : dp x = 0%Z) by (unfold dp; apply N.eqb_neq in Hx, Hx2; now rewrite Hx, Hx2).
        split; [|cbn [psum]; lia]. intros [|y p] q E; [cbn; lia|]. injection E as <- E. specialize (H1 p q E). cbn [psum]. lia.
Qed.

Lemma body_spells s a : ~ bad s -> parse_body rec s = Ok a -> spells s a /\ psum s = 0%Z.
Proof.
  intros Hb H. unfold parse_body in H. destruct s as [|c0 t] eqn:Es; [discriminate|]. rewrite <- Es in *.
  pose proof (paren_scan_fst s 0 true) as Hf. destruct (paren_scan s 0 true) as [po chk] eqn:Esc. cbn [fst] in Hf.
  destruct (Z.ltb_spec 0 po); [discriminate|]. destruct (Z.ltb_spec po 0); [discriminate|].
  assert (Hp : psum s = 0%Z) by lia. split; [|exact Hp].
  destruct (chk && N.eqb c0 40 && N.eqb (last s c0) 41)%bool eqn:E.
  - apply andb_true_iff in E as [E E3]. apply andb_true_iff in E as [E1 E2]. apply N.eqb_eq in E2, E3. subst chk.
    destruct (last_snoc s c0 41%N t Es E3) as (u & Hu); [subst c0; discriminate|]. subst c0.
    apply bind_ok in H as (inner & Hsl & H). apply bind_ok in H as (l & Hl & H). injection H as <-. rewrite Hu in Hsl.
    change (40%N :: u ++ [41%N]) with ([40%N] ++ u ++ [41%N]) in Hsl. change 1 with (List.length [40%N]) in Hsl at 1.
    rewrite slice_inner in Hsl. injection Hsl as <-.
    assert (Hw : wraps u).
    { assert (po = 0%Z) as -> by lia. rewrite Hu in Esc. cbn [paren_scan] in Esc. cbn [N.eqb Pos.eqb] in Esc.
      apply scan_wraps in Esc as [W1 W2]; [|lia]. change (0 + 1)%Z with 1%Z in *. split; [pose proof (psum_count u); lia|].
      intros p q E. specialize (W1 p q E). pose proof (psum_count p). lia. }
    apply Hrec in Hl as [L1 _].
    + now apply (S_wrapped s u).
    + eapply not_bad_piece; [|exact Hb]. rewrite Hu. now exists [40%N], [41%N].
  - destruct (select_op (scan_ops s s 0 92%N 0 0 0)) as [e|] eqn:Esel.
    + destruct (root_selected s e Esel) as (l & w & r & Hroot & Hl & Hw & Hs). destruct e as [[op i] wd]. cbn [fst snd] in *. subst i wd.
      unfold parse_split in H. rewrite Hs in H.
      replace (slice (l ++ w ++ r) (List.length l + List.length w) (List.length (l ++ w ++ r))) with (@Ok ParserError _ r) in H.
      2:{ symmetry. rewrite app_assoc. rewrite <- app_length. rewrite (app_length (l ++ w) r).
          pose proof (slice_mid (l ++ w) r []) as G. rewrite app_nil_r in G. exact G. }
      replace (slice (l ++ w ++ r) 0 (List.length l)) with (@Ok ParserError _ l) in H.
      2:{ symmetry. exact (slice_mid [] l (w ++ r)). }
      cbn [bind] in H. apply bind_ok in H as (rb & Hr & H).
      assert (Hbr : ~ bad r) by (eapply not_bad_piece; [|exact Hb]; rewrite Hs; exists (l ++ w), []; now rewrite app_nil_r, <- app_assoc).
      assert (Hbl : ~ bad l) by (eapply not_bad_piece; [|exact Hb]; rewrite Hs; now exists [], (w ++ r)).
      apply Hrec in Hr as [R1 _]; [|exact Hbr]. destruct l as [|x l].
      * injection H as <-. now apply (S_prefix s w r).
      * apply bind_ok in H as (lb & Hl & H). injection H as <-. apply Hrec in Hl as [L1 _]; [|exact Hbl].
        now apply (S_binary s (x :: l) w r); [| |exact L1|].
    + apply S_atom; [now apply root_none|]. now apply (atom_spells s c0 t).
Qed.
End Body.

Lemma inner_spells fuel : forall s a, ~ bad s -> parse_inner fuel s = Ok a -> spells s a /\ psum s = 0%Z.
Proof.
  induction fuel as [|fuel IH]; intros s a Hb H; [discriminate|]. cbn [parse_inner] in H. now apply (body_spells (parse_inner fuel)).
Qed.

(** A text that is not [misread] causes no trouble. *)
Lemma bad_misread s : bad s -> misread s.
Proof.
  intros (t & H1 & H2 & H3 & H4). exists t. split; [exact H1|]. split; [pose proof (psum_count t); lia|]. split; [now apply root_none|exact H4].
Qed.
Lemma misread_piece s t : piece s t -> misread s -> misread t.
Proof. intros H (u & H1 & H2). exists u. split; [eapply piece_trans; eauto|exact H2]. Qed.
Lemma misread_foreign s : misread s -> foreign s.
Proof.
  intros (t & H1 & _ & _ & H2). apply piece_incl in H1. apply (foreign_incl t); [exact H1|].
  destruct H2 as [(f & u & -> & _ & H)|(u & -> & H)].
  - eapply foreign_incl; [|exact H]. intros x Hx. apply in_app_iff. now left.
  - eapply foreign_incl; [|exact H]. intros x Hx. now right.
Qed.

(** C01, for every text: [parse] panics only if the text, without blanks, has
    a piece that is a call of a function with a non-ASCII name or a bracket
    with a non-ASCII character. *)
Theorem c01_panic_only_if_misread s : parse s = @Panic ParserError (AST N) -> misread (no_blanks (trim s)).
Proof.
  intros E. unfold parse in E. cbv zeta in E.
  pose proof (parse_inner_fine _ (strip_spaces s) (Nat.lt_succ_diag_r _)) as G. rewrite E, strip_spaces_eq in G.
  now apply bad_misread.
Qed.

(** Some texts that are not misread: without non-ASCII characters; without
    parentheses and brackets; with the non-ASCII characters after every
    parenthesis and before every bracket. *)
Definition apart (s : str) : Prop :=
  (forall p q, s = p ++ ch "(" :: q -> ~ foreign p) /\ (forall p q, s = p ++ ch "[" :: q -> ~ foreign q).
Lemma misread_not_apart s : misread s -> ~ apart s.
Proof.
  intros (t & (p & q & ->) & _ & _ & H) [H1 H2]. destruct H as [(f & u & -> & _ & H)|(u & -> & H)].
  - apply (H1 (p ++ f) (u ++ [ch ")"] ++ q)).
    + rewrite <- !app_assoc. cbn [app]. now rewrite <- app_assoc.
    + eapply foreign_incl; [|exact H]. intros x Hx. apply in_app_iff. now right.
  - apply (H2 p (u ++ q) eq_refl). eapply foreign_incl; [|exact H]. intros x Hx. apply in_app_iff. now left.
Qed.
Lemma no_blanks_split s p c q : no_blanks s = p ++ c :: q -> exists p' q', s = p' ++ c :: q' /\ no_blanks p' = p /\ no_blanks q' = q.
Proof.
  revert p. induction s as [|x s IH]; intros p H; [destruct p; discriminate|].
  cbn [no_blanks] in H. destruct (N.eqb x (ch " ")) eqn:E.
  - destruct (IH p H) as (p' & q' & -> & <- & <-). exists (x :: p'), q'. repeat split. cbn [no_blanks]. now rewrite E.
  - destruct p as [|y p].
    + injection H as -> H. now exists [], s.
    + injection H as -> H. destruct (IH p H) as (p' & q' & -> & <- & <-). exists (y :: p'), q'. repeat split. cbn [no_blanks]. now rewrite E.
Qed.
Lemma no_blanks_incl s : incl (no_blanks s) s.
Proof. intros x Hx. now apply no_blanks_in in Hx. Qed.
Lemma apart_stripped s : apart s -> apart (no_blanks (trim s)).
Proof.
  intros [H1 H2]. destruct (trim_split s) as (w & w' & _ & _ & Hs). split; intros p q E.
  - apply no_blanks_split in E as (p' & q' & Ht & <- & <-). intros Hf. apply (H1 (w ++ p') (q' ++ w')).
    + rewrite Hs, Ht, <- !app_assoc. reflexivity.
    + eapply foreign_incl; [|exact Hf]. intros x Hx. apply in_app_iff. right. now apply no_blanks_incl.
  - apply no_blanks_split in E as (p' & q' & Ht & <- & <-). intros Hf. apply (H2 (w ++ p') (q' ++ w')).
    + rewrite Hs, Ht, <- !app_assoc. reflexivity.
    + eapply foreign_incl; [|exact Hf]. intros x Hx. apply in_app_iff. left. now apply no_blanks_incl.
Qed.
Lemma ascii_apart s : ascii_text s -> apart s.
Proof.
  intros H. unfold ascii_text in H. rewrite Forall_forall in H. split; intros p q -> (c & H1 & H2); rewrite H in H2; try discriminate.
  - apply in_app_iff. now left.
  - apply in_app_iff. right. now right.
Qed.
Theorem c01_no_panic s : apart s -> parse s <> @Panic ParserError (AST N).
Proof. intros H E. apply c01_panic_only_if_misread in E. exact (misread_not_apart _ E (apart_stripped s H)). Qed.
Theorem c01_no_panic_without_brackets s : ~ In (ch "(") s -> ~ In (ch "[") s -> parse s <> @Panic ParserError (AST N).
Proof.
  intros H1 H2. apply c01_no_panic. split; intros p q -> _; [apply H1|apply H2]; apply in_app_iff; right; now left.
Qed.
Theorem c58_well_read s : apart s -> ~ misread (no_blanks (trim s)).
Proof. intros H E. exact (misread_not_apart _ E (apart_stripped s H)). Qed.

(** Whether a text is misread can be computed. *)
Definition foreignb (s : str) : bool := existsb (fun c => negb (is_ascii c)) s.
Lemma foreignb_spec s : foreignb s = true <-> foreign s.
Proof.
  unfold foreignb. rewrite existsb_exists. split; intros (c & H1 & H2); exists c; (split; [exact H1|]).
  - now apply negb_true_iff in H2. - now rewrite H2.
Qed.
Definition pieces (s : str) : list str :=
  flat_map (fun i => map (fun n => firstn n (skipn i s)) (seq 0 (S (List.length s)))) (seq 0 (S (List.length s))).
Lemma pieces_all s t : piece t s -> In t (pieces s).
Proof.
  intros (p & q & ->). unfold pieces. apply in_flat_map. exists (List.length p). split; [apply in_seq; rewrite !app_length; lia|].
  apply in_map_iff. exists (List.length t). split; [|apply in_seq; rewrite !app_length; lia].
  rewrite skipn_app, skipn_all, Nat.sub_diag. cbn [skipn app]. rewrite firstn_app, firstn_all, Nat.sub_diag. cbn. now rewrite app_nil_r.
Qed.
Definition misreadb (s : str) : bool :=
  existsb (fun t => Z.eqb (psum t) 0 && match select_op (scan_ops t t 0 92%N 0 0 0) with None => true | Some _ => false end
                    && (foreignb (before 40%N t) && contains t 40%N || match t with 91%N :: u => foreignb u | _ => false end))%bool (pieces s).
Lemma misreadb_false s : misreadb s = false -> ~ misread s.
Proof.
  intros H (t & H1 & H2 & H3 & H4). apply pieces_all in H1. enough (misreadb s = true) by congruence.
  apply existsb_exists. exists t. split; [exact H1|]. apply andb_true_iff. split; [apply andb_true_iff; split|].
  - apply Z.eqb_eq. rewrite psum_count. change 40%N with (ch "(") in *. change 41%N with (ch ")") in *. lia.
  - destruct (select_op _) as [e|] eqn:E; [|reflexivity]. exfalso.
    destruct (root_selected t e E) as (l & w & r & (k & Hk & _) & _). now apply H3 in Hk.
  - apply orb_true_iff. destruct H4 as [(f & u & -> & Hf & Hff)|(u & -> & Hu)]; [left|right].
    + assert (Eb : before 40%N (f ++ ch "(" :: u ++ [ch ")"]) = f).
      { clear -Hf. induction f as [|x f IH]; [reflexivity|]. cbn [app before]. destruct (N.eqb_spec x 40) as [->|]; [exfalso; apply Hf; now left|].
        f_equal. apply IH. intros G. apply Hf. now right. }
      rewrite Eb. apply andb_true_iff. split; [now apply foreignb_spec|]. apply contains_In. apply in_app_iff. right. now left.
    + now apply foreignb_spec.
Qed.

(** C58: an accepted text that is not misread, without white space at its
    ends and without blanks, spells out the tree. *)
Theorem c58_accepted s a : ~ misread (no_blanks (trim s)) -> parse s = Ok a ->
  exists w t w', s = w ++ t ++ w' /\ (forall c, In c w -> is_whitespace c = true) /\ (forall c, In c w' -> is_whitespace c = true) /\
    spells (no_blanks t) a.
Proof.
  intros Ha H. destruct (trim_split s) as (w & w' & H1 & H2 & H3). exists w, (trim s), w'. repeat split; auto.
  unfold parse in H. cbv zeta in H. rewrite strip_spaces_eq in H. apply inner_spells in H as [H _]; [exact H|].
  intros Hb. now apply Ha, bad_misread.
Qed.

(** ** Leaves of the tree are pieces of the text *)
Lemma piece_length (t s : str) : piece t s -> List.length t <= List.length s.
Proof. intros (p & q & ->). rewrite !app_length. lia. Qed.
Lemma forall2_in {A B} (R : A -> B -> Prop) l l' b : Forall2 R l l' -> In b l' -> exists a, In a l /\ R a b.
Proof. induction 1 as [|x y l l' H1 H2 IH]; [easy|]. intros [<-|H]; [exists x; split; [now left|exact H1]|]. destruct (IH H) as (a & G1 & G2). exists a. split; [now right|exact G2]. Qed.

Definition below (s : str) (b : AST N) : Prop :=
  b = AScalar n0 \/ exists t, piece t s /\ List.length t < List.length s /\ spells t b.
Lemma below_mid p t q b : spells t b -> p <> [] -> below (p ++ t ++ q) b.
Proof.
  intros H Hp. right. exists t. split; [apply piece_mid|]. split; [|exact H]. rewrite !app_length. destruct p; [congruence|cbn; lia].
Qed.
Lemma below_join p ss q aa b : Forall2 spells ss aa -> In b aa -> p <> [] -> below (p ++ join [44%N] ss ++ q) b.
Proof.
  intros H Hin Hp. destruct (forall2_in _ _ _ _ H Hin) as (t & H1 & H2). right. exists t. split.
  - eapply piece_trans; [apply piece_join; eassumption|]. apply piece_mid.
  - split; [|exact H2]. pose proof (piece_length _ _ (piece_join ss t H1)). rewrite !app_length. destruct p; [congruence|cbn; lia].
Qed.

Lemma vector_children s v b : spells s (AVector v) -> In b v -> below s b.
Proof.
  intros H Hin. inversion H as [| | |a _ Ha]; subst. inversion Ha as [| | | | | |ss aa Hne Hf _| | | |]; subst.
  now apply (below_join [91%N] ss [93%N] v b).
Qed.
Lemma children_below s a b : spells s a -> In b (children a) -> below s b.
Proof.
  intros H Hin. destruct H as [u a -> _ Hu|l w r op a c (k & Ho & _) Hne Hl Hr|w r op c (k & Ho & _) Hr|a _ Ha].
  - destruct Hin as [<-|[<-|[]]]; [|now left]. now apply (below_mid [40%N] u [41%N]).
  - assert (Hs : s = l ++ w ++ r) by (inversion Ho; subst; reflexivity).
    assert (Hwr : w ++ r <> []).
    { inversion Ho; subst; try discriminate. cbn. now destruct H1 as (? & ? & ? & ? & _ & -> & _). }
    destruct Hin as [<-|[<-|[]]]; right.
    + exists l. split; [rewrite Hs; apply (piece_mid [])|]. split; [|exact Hl]. rewrite Hs, app_length. destruct (w ++ r); [congruence|cbn; lia].
    + exists r. split; [exists (l ++ w), []; rewrite Hs, app_nil_r, <- app_assoc; reflexivity|]. split; [|exact Hr].
      rewrite Hs, !app_length. destruct l; [congruence|cbn; lia].
  - destruct Hin as [<-|[<-|[]]]; [now left|]. right. exists r. inversion Ho; subst.
    + split; [exists [c0], []; now rewrite app_nil_r|]. split; [cbn; lia|exact Hr].
    + split; [exists [ch "-"], []; now rewrite app_nil_r|]. split; [cbn; lia|exact Hr].
    + destruct H1 as ([|? ?] & ? & ? & ? & E & _); discriminate.
  - destruct Ha; cbn [children] in Hin.
    + easy.
    + easy.
    + destruct Hin as [<-|[<-|[]]]; [|now left]. change (lit f ++ ch "(" :: s ++ [ch ")"]) with (lit f ++ [ch "("] ++ s ++ [ch ")"]).
      rewrite app_assoc. apply below_mid; [assumption|]. destruct (lit f); discriminate.
    + destruct Hin as [<-|[<-|[]]]; [now apply below_mid|].
      replace (lit "root(" ++ s1 ++ ch "," :: s2 ++ [ch ")"]) with ((lit "root(" ++ s1 ++ [ch ","]) ++ s2 ++ [ch ")"]) by (rewrite <- !app_assoc; reflexivity).
      now apply below_mid.
    + change (f ++ ch "(" :: join (lit ",") ss ++ [ch ")"]) with (f ++ [ch "("] ++ join [44%N] ss ++ [ch ")"]).
      rewrite app_assoc. eapply below_join; [eassumption..|]. destruct f; discriminate.
    + eapply (below_join [123%N] ss [125%N]); eauto. discriminate.
    + eapply (below_join [91%N] ss [93%N]); eauto. discriminate.
    + apply in_concat in Hin as (row & Hrow & Hb).
      assert (Hv : exists v, In v vs /\ In b v).
      { destruct row_major; [subst m; eauto|]. destruct H3 as [_ Ht]. apply In_nth_error in Hrow as (i & Hi). apply In_nth_error in Hb as (j & Hj).
        specialize (Ht i j). rewrite Hi, Hj in Ht. destruct (nth_error vs j) as [v|] eqn:Ev; [|discriminate]. exists v.
        split; [now apply nth_error_In in Ev|]. symmetry in Ht. now apply nth_error_In in Ht. }
      destruct Hv as (v & Hv & Hbv).
      destruct (forall2_in _ _ _ (AVector v) H ltac:(now apply in_map)) as (t & Ht1 & Ht2).
      destruct (vector_children t v b Ht2 Hbv) as [->|(t' & P1 & P2 & P3)]; [now left|right].
      assert (Hpt : piece t (91%N :: join [44%N] ss ++ [93%N])).
      { eapply piece_trans; [apply piece_join; eassumption|]. apply (piece_mid [91%N]). }
      exists t'. split; [eapply piece_trans; eassumption|]. split; [|exact P3]. apply piece_length in Hpt. exact (Nat.lt_le_trans _ _ _ P2 Hpt).
    + destruct Hin as [<-|[<-|[]]]; [now apply below_mid|].
      replace (lit "D(" ++ f ++ ch "," :: x ++ ch "," :: p ++ [z]) with ((lit "D(" ++ f ++ [ch ","] ++ x ++ [ch ","]) ++ p ++ [z]) by (rewrite <- !app_assoc; reflexivity).
      now apply below_mid.
    + destruct Hin as [<-|[<-|[<-|[]]]]; [now apply below_mid| |].
      * replace (lit "I(" ++ f ++ ch "," :: x ++ ch "," :: l ++ ch "," :: u ++ [z]) with ((lit "I(" ++ f ++ [ch ","] ++ x ++ [ch ","]) ++ l ++ [ch ","] ++ u ++ [z]) by (rewrite <- !app_assoc; reflexivity).
        now apply below_mid.
      * replace (lit "I(" ++ f ++ ch "," :: x ++ ch "," :: l ++ ch "," :: u ++ [z]) with ((lit "I(" ++ f ++ [ch ","] ++ x ++ [ch ","] ++ l ++ [ch ","]) ++ u ++ [z]) by (rewrite <- !app_assoc; reflexivity).
        now apply below_mid.
    + apply in_flat_map in Hin as (q & Hq & Hb). apply in_flat_map in Hq as (x & Hx & Hq).
      destruct (forall2_in _ _ _ x H0 Hx) as (e & He & Hsp). destruct x as [v|q']; [easy|]. destruct Hq as [<-|[]].
      assert (Hpe : piece e (lit "eq(" ++ join (lit ",") es ++ [z])) by (eapply piece_trans; [apply piece_join; eassumption|]; apply piece_mid).
      assert (Hle : List.length e < List.length (lit "eq(" ++ join (lit ",") es ++ [z])).
      { pose proof (piece_length _ _ (piece_join es e He)). rewrite !app_length. change (lit ",") with [44%N]. change (List.length (lit "eq(")) with 3. cbn [List.length]. lia. }
      inversion Hsp as [|l r rest a c Ha Hc Hnl Hnr Hrest]; subst.
      assert (Hbc : b = a \/ b = c) by (destruct (Nat.leb _ _) in Hb; cbn in Hb; intuition).
      right. destruct Hbc as [->| ->].
      * exists l. split; [eapply piece_trans; [|exact Hpe]; apply (piece_mid [])|]. split; [|exact Ha].
        rewrite app_length in Hle. lia.
      * exists r. split; [eapply piece_trans; [|exact Hpe]; exists (l ++ [ch "="]), rest; now rewrite <- app_assoc|]. split; [|exact Hc].
        pose proof (app_length l (ch "=" :: r ++ rest)) as G1. cbn [List.length] in G1. rewrite (app_length r rest) in G1. lia.
Qed.

Lemma nodes_below n : forall s a b, List.length s < n -> spells s a -> node b a -> b = AScalar n0 \/ exists t, piece t s /\ spells t b.
Proof.
  induction n as [|n IH]; intros s a b Hl Hs Hn; [lia|]. destruct Hn as [|c a Hc Hn].
  - right. exists s. split; [apply piece_refl|exact Hs].
  - destruct (children_below s a c Hs Hc) as [->|(t & P1 & P2 & P3)].
    + left. inversion Hn as [|x y Hin]; [reflexivity|easy].
    + destruct (IH t c b) as [->|(t' & Q1 & Q2)]; [lia|exact P3|exact Hn|now left|]. right. exists t'. split; [eapply piece_trans; eassumption|exact Q2].
Qed.

(** Every node of the tree is the reading of a piece of the text, except the
    zeros put in place of an absent operand. *)
Theorem c58_every_node s a b : ~ misread (no_blanks (trim s)) -> parse s = Ok a -> node b a ->
  b = AScalar n0 \/ exists t, piece t (no_blanks s) /\ spells t b.
Proof.
  intros Ha H Hn. destruct (c58_accepted s a Ha H) as (w & t & w' & Hs & _ & _ & Hsp).
  destruct (nodes_below (S (List.length (no_blanks t))) _ a b (Nat.lt_succ_diag_r _) Hsp Hn) as [->|(u & P1 & P2)]; [now left|right].
  exists u. split; [|exact P2]. eapply piece_trans; [exact P1|]. rewrite Hs, !no_blanks_app. apply piece_mid.
Qed.
Theorem c58_names s a n : ~ misread (no_blanks (trim s)) -> parse s = Ok a ->
  (node (AVar n) a -> piece n (no_blanks s)) /\
  (forall args, node (AFun n args) a -> piece (n ++ [ch "("]) (no_blanks s)).
Proof.
  intros Ha H. split.
  - intros Hn. destruct (c58_every_node s a _ Ha H Hn) as [E|(t & P1 & P2)]; [discriminate|].
    inversion P2 as [| | |a' _ Hat]; subst. inversion Hat; subst. exact P1.
  - intros args Hn. destruct (c58_every_node s a _ Ha H Hn) as [E|(t & P1 & P2)]; [discriminate|].
    inversion P2 as [| | |a' _ Hat]; subst. inversion Hat; subst. eapply piece_trans; [|exact P1].
    exists [], (join (lit ",") ss ++ [ch ")"]). cbn [app]. now rewrite <- app_assoc.
Qed.
Theorem c58_numbers s a x : ~ misread (no_blanks (trim s)) -> parse s = Ok a -> node (AScalar x) a ->
  x = n0 \/ exists t, piece t (no_blanks s) /\ nparse t = Some x.
Proof.
  intros Ha H Hn. destruct (c58_every_node s a _ Ha H Hn) as [E|(t & P1 & P2)]; [injection E; now left|].
  inversion P2 as [| | |a' _ Hat]; subst. inversion Hat; subst. right; eauto.
Qed.
End Spell.

(** ** Examples *)
From Verif Require Import Toy.
Module SpellExamples.
Import PropParser.Examples.
Local Open Scope string_scope.
Local Open Scope list_scope.

(** The hypotheses are met: a text with blanks, operators of three priorities,
    a product without sign, a call and a matrix literal. *)
Example accepted : shown (@parse NT ET (lit " 2x + f(1, a-b-3) * [[1,2],[3,4]] ")) =
  Some (lit "{+ {. 2 x} {* {call f 1 {- {- a b} 3}} <1 3;2 4>}}").
Proof. vm_compute. reflexivity. Qed.
Lemma shown_spells (s : string) r : ascii_text (lit s) -> shown (@parse NT ET (lit s)) = Some r ->
  exists a, @parse NT ET (lit s) = Ok a /\ tree_of a = r /\ exists w t w', lit s = w ++ t ++ w' /\ @spells NT ET (no_blanks t) a.
Proof.
  intros Ha H. destruct (@parse NT ET (lit s)) as [a| | |] eqn:E; try discriminate. exists a. split; [reflexivity|].
  injection H as H. split; [exact H|]. destruct (@c58_accepted NT ET (lit s) a (c58_well_read _ (ascii_apart _ Ha)) E) as (w & t & w' & H1 & _ & _ & H2). eauto.
Qed.
Lemma ascii_lit (s : string) : forallb is_ascii (lit s) = true -> ascii_text (lit s).
Proof. intros H. apply Forall_forall. rewrite forallb_forall in H. exact H. Qed.
Example accepted_spelled : exists a w t w', lit " 2x + f(1, a-b-3) * [[1,2],[3,4]] " = w ++ t ++ w' /\ @spells NT ET (no_blanks t) a.
Proof.
  destruct (shown_spells _ _ (ascii_lit " 2x + f(1, a-b-3) * [[1,2],[3,4]] " eq_refl) accepted) as (a & _ & _ & w & t & w' & H). eauto.
Qed.
(** The operators of [a-b*c-d] outside brackets, and the root. *)
Example root : @root_at ET (lit "a-b*c-d") (lit "a-b*c") (lit "-") (lit "d") OSub.
Proof.
  destruct (@root_selected ET (lit "a-b*c-d") (OSub, 5, 1)) as (l & w & r & H & H1 & H2 & H3); [vm_compute; reflexivity|].
  cbn [fst snd] in *. change (lit "a-b*c-d") with (lit "a-b*c" ++ lit "-" ++ lit "d") in H3.
  symmetry in H3. destruct (same_prefix _ _ _ _ H3) as [E H4]; [rewrite H1; reflexivity|].
  destruct (same_prefix _ _ _ _ H4) as [E' H5]; [rewrite H2; reflexivity|]. subst. exact H.
Qed.
(** Findings: the character after the search variables is dropped when it is
    not a parenthesis, and the parenthesis becomes part of the name. *)
Theorem c58_last_character_dropped :
  shown (@parse NT ET (lit "eq(x=1,x)y")) = Some (lit "{eq x=1,x)}") /\
  shown (@parse NT ET (lit "eq(x=1,x)z")) = Some (lit "{eq x=1,x)}").
Proof. split; vm_compute; reflexivity. Qed.
Theorem c58_last_character_dropped_derivative : shown (@parse NT ET (lit "D(x,x)[,3y")) = Some (lit "{D x x)[ 3}").
Proof. vm_compute. reflexivity. Qed.
(** Adjacent calls are one call of a function of a strange variable. *)
Theorem c58_adjacent_calls : shown (@parse NT ET (lit "f(x)g(y)")) = Some (lit "{call f x)g(y}").
Proof. vm_compute. reflexivity. Qed.
End SpellExamples.
