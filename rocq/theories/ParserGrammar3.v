(** * ParserGrammar3: every expression of the grammar of [GrammarSpec] is parsed
    to its tree (the parser). *)
From Coq Require Import List NArith ZArith Bool Lia Arith String.
From Verif Require Import Base BaseFacts F64 Num Types Helpers Parser EvalTotal ParserBase GrammarSpec ParserGrammar ParserGrammar2.
Import ListNotations.

Section Parse.
Context {N : Num} {En : Env}.

(** ** Surrounding parentheses *)
Lemma run_psum l : forall s s', run s l = Some s' -> (Z.of_nat (fst (fst s')) = Z.of_nat (fst (fst s)) + psum l)%Z.
Proof.
  induction l as [|x l IH]; intros s s'; cbn [run psum]; [injection 1 as <-; lia|].
  destruct (run1 s x) as [s1|] eqn:E; [|discriminate]. intros H. apply IH in H. rewrite H. clear H IH.
  destruct s as [[p b] c]. unfold run1 in E. unfold dp.
  destruct (N.eqb_spec x 40) as [->|]; [injection E as <-; cbn [fst]; lia|].
  destruct (N.eqb_spec x 41) as [->|]; [destruct p; [discriminate|]; injection E as <-; cbn [fst]; lia|].
  destruct (N.eqb x 91); [injection E as <-; cbn [fst]; lia|].
  destruct (N.eqb x 93); [destruct b; [discriminate|]; injection E as <-; cbn [fst]; lia|].
  destruct (N.eqb x 123); [injection E as <-; cbn [fst]; lia|].
  destruct (N.eqb x 125); [destruct c; [discriminate|]; injection E as <-; cbn [fst]; lia|].
  destruct (N.eqb x 44); [destruct (Nat.eqb (p + b + c) 0); [discriminate|]|]; injection E as <-; cbn [fst]; lia.
Qed.
Lemma neutral_psum l : neutral l -> psum l = 0%Z.
Proof. intros H. apply run_psum in H. cbn in H. lia. Qed.

Lemma paren_scan_false l : forall d, snd (paren_scan l d false) = false.
Proof.
  induction l as [|x l IH]; intros d; [reflexivity|]. cbn [paren_scan]. destruct (N.eqb x 41); [|apply IH].
  rewrite Tauto.if_same. apply IH.
Qed.
Lemma paren_scan_closes l : forall s s' rest chk, run s l = Some s' -> 1 <= fst (fst s) -> fst (fst s') = 0 -> rest <> [] ->
  snd (paren_scan (l ++ rest) (Z.of_nat (fst (fst s))) chk) = false.
Proof.
  induction l as [|x l IH]; intros s s' rest chk H Hs Hs' Hr; cbn [run] in H; [injection H as <-; lia|].
  destruct (run1 s x) as [s1|] eqn:E; [|discriminate]. cbn [app paren_scan].
  destruct s as [[p b] c]. cbn [fst] in *. unfold run1 in E.
  destruct (N.eqb_spec x 40) as [->|].
  { injection E as <-. change (N.eqb 40 41) with false. cbv iota.
    replace (Z.of_nat p + 1)%Z with (Z.of_nat (fst (fst (S p, b, c)))) by (cbn [fst]; lia). eapply IH; eauto. cbn; lia. }
  destruct (N.eqb_spec x 41) as [->|].
  { destruct p as [|p]; [discriminate|]. injection E as <-.
    replace (Z.of_nat (S p) - 1)%Z with (Z.of_nat p) by lia. destruct p as [|p].
    - change (Z.of_nat 0 =? 0)%Z with true. replace (match l ++ rest with [] => true | _ :: _ => false end) with false.
      + cbn [negb andb]. apply paren_scan_false.
      + destruct l; [destruct rest; [congruence|reflexivity]|reflexivity].
    - destruct (Z.eqb_spec (Z.of_nat (S p)) 0); [lia|]. cbn [andb].
      change (Z.of_nat (S p)) with (Z.of_nat (fst (fst (S p, b, c)))). eapply IH; eauto. cbn; lia. }
  assert (Hp : fst (fst s1) = p).
  { destruct (N.eqb x 91); [injection E as <-; reflexivity|].
    destruct (N.eqb x 93); [destruct b; [discriminate|]; injection E as <-; reflexivity|].
    destruct (N.eqb x 123); [injection E as <-; reflexivity|].
    destruct (N.eqb x 125); [destruct c; [discriminate|]; injection E as <-; reflexivity|].
    destruct (N.eqb x 44); [destruct (Nat.eqb (p + b + c) 0); [discriminate|]|]; injection E as <-; reflexivity. }
  rewrite <- Hp. eapply IH; eauto. lia.
Qed.
(** A balanced text that starts with ['('] and goes on. *)
Lemma paren_scan_goes_on l rest : neutral l -> hd 0%N l = 40%N -> rest <> [] -> snd (paren_scan (l ++ rest) 0 true) = false.
Proof.
  intros Hn Hh Hr. destruct l as [|c l]; [discriminate|]. cbn in Hh. subst c. unfold neutral in Hn. cbn [run] in Hn.
  change (run1 O3 40%N) with (Some (1, 0, 0)) in Hn. cbn [app paren_scan]. change (N.eqb 40 41) with false. cbv iota.
  change (0 + 1)%Z with (Z.of_nat (fst (fst (1, 0, 0)))). eapply paren_scan_closes; eauto.
Qed.
Lemma paren_scan_inner u : forall s s' rest chk, runc s u = Some s' ->
  paren_scan (u ++ rest) (Z.of_nat (fst (fst s)) + 1) chk = paren_scan rest (Z.of_nat (fst (fst s')) + 1) chk.
Proof.
  induction u as [|x u IH]; intros s s' rest chk H; cbn [runc] in H; [now injection H as <-|].
  destruct (runc1 s x) as [s1|] eqn:E; [|discriminate]. cbn [app paren_scan]. unfold runc1 in E.
  destruct (N.eqb_spec x 44) as [->|]; [injection E as <-; change (N.eqb 44 41) with false; change (N.eqb 44 40) with false; cbv iota; now apply IH|].
  destruct s as [[p b] c]. cbn [fst] in *. unfold run1 in E.
  destruct (N.eqb_spec x 40) as [->|].
  { injection E as <-. change (N.eqb 40 41) with false. cbv iota. rewrite <- (IH _ _ _ _ H). cbn [fst]. f_equal. lia. }
  destruct (N.eqb_spec x 41) as [->|].
  { destruct p as [|p]; [discriminate|]. injection E as <-. rewrite <- (IH _ _ _ _ H). cbn [fst].
    replace (Z.of_nat (S p) + 1 - 1)%Z with (Z.of_nat p + 1)%Z by lia. destruct (Z.eqb_spec (Z.of_nat p + 1) 0); [lia|reflexivity]. }
  assert (Hp : fst (fst s1) = p).
  { destruct (N.eqb x 91); [injection E as <-; reflexivity|].
    destruct (N.eqb x 93); [destruct b; [discriminate|]; injection E as <-; reflexivity|].
    destruct (N.eqb x 123); [injection E as <-; reflexivity|].
    destruct (N.eqb x 125); [destruct c; [discriminate|]; injection E as <-; reflexivity|].
    destruct (N.eqb x 44); [destruct (Nat.eqb (p + b + c) 0); [discriminate|]|]; injection E as <-; reflexivity. }
  rewrite <- (IH _ _ _ _ H), Hp. reflexivity.
Qed.
Lemma paren_scan_wrapped u : inner u -> paren_scan (40%N :: u ++ [41%N]) 0 true = (0%Z, true).
Proof.
  intros H. cbn [paren_scan]. change (N.eqb 40 41) with false. cbv iota.
  pose proof (paren_scan_inner u O3 O3 [41%N] true H) as G. cbn [fst O3] in G. change (Z.of_nat 0) with 0%Z in G.
  change (N.eqb 40 40) with true. cbv iota. rewrite G. reflexivity.
Qed.

(** ** The body of the parser *)
Section Body.
Variable rec : str -> res ParserError (AST N).

Lemma scan_start s : neutral s -> scan_ops s s 0 92%N 0 0 0 = scan2 false s 0 0%N 92%N O3.
Proof.
  intros H. pose proof (scan_ops_scan2 s s [] 0 92%N O3 O3 eq_refl eq_refl eq_refl H) as G. exact G.
Qed.

Lemma firstn_app_exact {A} (l r : list A) : firstn (List.length l) (l ++ r) = l.
Proof. rewrite firstn_app, Nat.sub_diag, firstn_O, app_nil_r. apply firstn_all. Qed.
Lemma skipn_app_exact {A} (l r : list A) : skipn (List.length l) (l ++ r) = r.
Proof. rewrite skipn_app, Nat.sub_diag, skipn_all. reflexivity. Qed.

Lemma body_split op l w r : neutral (l ++ w ++ r) -> l ++ w ++ r <> [] ->
  (hd 0%N (l ++ w ++ r) = 40%N -> snd (paren_scan (l ++ w ++ r) 0 true) = false) ->
  select_op (scan2 false (l ++ w ++ r) 0 0%N 92%N O3) = Some (op, List.length l, List.length w) ->
  parse_body rec (l ++ w ++ r) =
    (do b <- rec r; match l with [] => Ok (AOp op (AScalar n0) b) | _ => do a <- rec l; Ok (AOp op a b) end).
Proof.
  set (s := l ++ w ++ r). intros Hn Hne Hp Hsel. unfold parse_body.
  destruct s as [|c0 t] eqn:Es; [congruence|]. rewrite <- Es in *.
  pose proof (paren_scan_fst s 0 true) as Hf. destruct (paren_scan s 0 true) as [po chk] eqn:Eps. cbn [fst] in Hf.
  rewrite (neutral_psum s Hn) in Hf. cbn in Hf. subst po. change (0 <? 0)%Z with false. cbv iota.
  replace (chk && N.eqb c0 40 && N.eqb (last s c0) 41)%bool with false.
  2:{ destruct (N.eqb_spec c0 40) as [->|]; [|now rewrite andb_false_r]. rewrite Es in Hp. cbn [hd snd] in Hp. rewrite (Hp eq_refl). reflexivity. }
  rewrite scan_start by assumption. rewrite Hsel. unfold parse_split.
  assert (Hlen : List.length s = List.length l + List.length w + List.length r) by (unfold s; rewrite !app_length; lia).
  rewrite !slice_ok by lia. cbn [bind].
  replace (firstn _ (skipn (List.length l + List.length w) s)) with r.
  2:{ unfold s. rewrite app_assoc. rewrite <- app_length. rewrite skipn_app_exact.
      rewrite firstn_all2; [reflexivity|]. rewrite !app_length. lia. }
  rewrite Nat.sub_0_r. cbn [skipn]. replace (firstn (List.length l) s) with l by (unfold s; now rewrite firstn_app_exact).
  reflexivity.
Qed.

Lemma body_atom s c0 t : neutral s -> s = c0 :: t -> c0 <> 40%N -> scan2 false s 0 0%N 92%N O3 = [] ->
  parse_body rec s = parse_atom rec s c0 (last s c0).
Proof.
  intros Hn Hs Hc Hsc. unfold parse_body. rewrite Hs at 1. cbv iota.
  pose proof (paren_scan_fst s 0 true) as Hf. destruct (paren_scan s 0 true) as [po chk] eqn:Eps. cbn [fst] in Hf.
  rewrite (neutral_psum s Hn) in Hf. cbn in Hf. subst po. change (0 <? 0)%Z with false. cbv iota.
  apply N.eqb_neq in Hc. rewrite Hc, andb_false_r. cbn [andb]. rewrite scan_start, Hsc by assumption. reflexivity.
Qed.

Lemma body_wrapped u : inner u -> parse_body rec (40%N :: u ++ [41%N]) = (do l <- rec u; Ok (AOp OParenths l (AScalar n0))).
Proof.
  intros Hu. unfold parse_body. rewrite paren_scan_wrapped by assumption. change (0 <? 0)%Z with false. cbv iota.
  rewrite last_cons, last_last. cbn [andb N.eqb Pos.eqb]. rewrite slice_ok; [|cbn; rewrite app_length; cbn; lia..].
  cbn [bind]. replace (firstn _ _) with u; [reflexivity|].
  cbn [List.length skipn]. rewrite app_length. cbn [List.length]. replace (S (List.length u + 1) - 1 - 1) with (List.length u) by lia.
  now rewrite firstn_app_exact.
Qed.

End Body.

(** ** Atoms *)
Lemma name_chars f c : name f -> In c f -> c = 40%N \/ c = 41%N \/ c = 91%N \/ c = 93%N -> False.
Proof.
  intros (c0 & t & -> & _ & Hc0 & Ht) Hin Hc.
  assert (G : forall t, name_rest t -> In c t -> False).
  { clear -Hc. intros t Ht. assert (Hb : In c brackets) by (destruct Hc as [->|[->|[->| ->]]]; vm_compute; tauto).
    induction Ht as [|x t Hx Ht IH|d t Hd Ht IH|u t Hu Ht IH]; intros Hin; [exact Hin| | |].
    - destruct Hin as [->|Hin]; [destruct Hx as (H & _); contradiction|auto].
    - destruct Hin as [<-|[->|Hin]]; [vm_compute in Hb; intuition discriminate| |auto].
      destruct (numeric_not _ Hd) as [G _]. contradiction.
    - destruct Hin as [<-|Hin]; [vm_compute in Hc; intuition discriminate|].
      apply in_app_iff in Hin as [Hin|[<-|Hin]]; [eapply Hu; eauto|vm_compute in Hc; intuition discriminate|auto]. }
  destruct Hin as [->|Hin]; [|eauto].
  destruct Hc0 as (H & _). apply H. destruct Hc as [->|[->|[->| ->]]]; vm_compute; tauto.
Qed.

Lemma starts_with_call f g u : ~ In 40%N f -> ~ In 40%N g -> starts_with (f ++ 40%N :: u) (g ++ [40%N]) = str_eqb f g.
Proof.
  revert g; induction f as [|x f IH]; intros [|y g] Hf Hg; cbn.
  - destruct u; reflexivity.
  - change (N.eqb 40 y && starts_with u (g ++ [40%N]) = false)%bool. destruct (N.eqb_spec 40 y) as [<-|]; [exfalso; apply Hg; now left|reflexivity].
  - destruct (N.eqb_spec x 40) as [->|]; [exfalso; apply Hf; now left|reflexivity].
  - rewrite IH; [reflexivity| |]; intros H; [apply Hf|apply Hg]; now right.
Qed.
Lemma starts_with_no_paren s g : ~ In 40%N s -> starts_with s (g ++ [40%N]) = false.
Proof.
  revert g; induction s as [|x s IH]; intros [|y g] H; cbn; try reflexivity.
  - destruct (N.eqb_spec x 40) as [->|]; [exfalso; apply H; now left|reflexivity].
  - rewrite IH; [apply andb_false_r|]. intros G; apply H; now right.
Qed.

Lemma function_look_up_eq : function_look_up =
  map (fun x => (fst x, lit (snd x) ++ [40%N]))
   [(OSin, "sin"); (OCos, "cos"); (OTan, "tan"); (OAbs, "abs"); (OSqrt, "sqrt"); (ORoot, "root"); (OLn, "ln");
   (OArcsin, "arcsin"); (OArccos, "arccos"); (OArctan, "arctan"); (ODet, "det"); (OInv, "inv")]%string.
Proof. reflexivity. Qed.
Lemma advanced_look_up_eq : advanced_look_up =
  map (fun x => (fst x, lit (snd x) ++ [40%N])) [(AdvIntegral, "I"); (AdvDerivative, "D"); (AdvEquation, "eq")]%string.
Proof. reflexivity. Qed.

Lemma try_prefix_none {A} s (l : list (A * string)) k o :
  (forall a p, In (a, p) l -> starts_with s (lit p ++ [40%N]) = false) ->
  try_prefix s (map (fun x => (fst x, lit (snd x) ++ [40%N])) l) k o = o.
Proof.
  induction l as [|[a p] l IH]; intros H; [reflexivity|]. cbn [map try_prefix fst snd].
  rewrite (H a p (or_introl eq_refl)). apply IH. intros; eapply H; right; eauto.
Qed.



Lemma valid_rest t : name_rest t -> forall p, valid_name_go t 0 p = true.
Proof.
  induction 1 as [|c t Hc Ht IH|d t Hd Ht IH|u t Hu Ht IH]; intros p; [reflexivity| | |].
  - pose proof Hc as (H1 & H2 & H3 & H4 & H5). cbn [valid_name_go].
    rewrite (bracket_not c 123%N), (bracket_not c 125%N) by (assumption || (vm_compute; tauto)).
    unfold is_op_or_eq. rewrite (opchars_symbol c H2), H5. apply N.eqb_neq in H3. change (N.eqb c (ch "=")) with (N.eqb c 61) in H3.
    rewrite H3. cbn [andb]. apply IH.
  - destruct (numeric_not d Hd) as (D1 & D2 & D3 & D4). cbn -[is_numeric is_op_or_eq]. change (is_op_or_eq (ch "_")) with false.
    change (is_numeric (ch "_")) with false. cbn [andb].
    rewrite (bracket_not d 123%N), (bracket_not d 125%N) by (assumption || (vm_compute; tauto)).
    unfold is_op_or_eq. rewrite D3. replace (N.eqb d 61) with false.
    2:{ symmetry; apply N.eqb_neq. intros ->. discriminate Hd. }
    cbn [andb Z.eqb]. change (ch "_") with 95%N. cbn [N.eqb Pos.eqb negb]. rewrite andb_false_r. apply IH.
  - cbn [valid_name_go]. change (ch "{") with 123%N. cbn [N.eqb Pos.eqb]. change (0 + 1)%Z with 1%Z.
    change (1 =? 0)%Z with false. rewrite !andb_false_r. cbn [andb].
    assert (G : forall u q, (forall c, In c u -> ~ In c brackets) -> valid_name_go (u ++ 125%N :: t) 1 q = valid_name_go t 0 125%N).
    { clear. induction u as [|x u IHu]; intros q Hu.
      - cbn. reflexivity.
      - cbn [app valid_name_go]. assert (Hx : ~ In x brackets) by (apply Hu; now left).
        rewrite (bracket_not x 123%N), (bracket_not x 125%N) by (assumption || (vm_compute; tauto)).
        change (1 =? 0)%Z with false. rewrite !andb_false_r. cbn [andb]. apply IHu. intros; apply Hu; now right. }
    change (ch "}") with 125%N. rewrite G by assumption. apply IH.
Qed.
Lemma name_valid f : name f -> @is_valid_var_name _ ParserError f = Ok true.
Proof.
  intros (c & t & -> & Ha & Hc & Ht). unfold is_valid_var_name.
  replace (negb (is_alphabetic c) && negb (N.eqb c 92))%bool with false.
  2:{ symmetry. destruct Ha as [->| ->]; [reflexivity|]. apply andb_false_r. }
  f_equal. apply (valid_rest (c :: t)). now constructor.
Qed.

Lemma before_app c f u : ~ In c f -> before c (f ++ c :: u) = f.
Proof.
  induction f as [|x f IH]; intros H; cbn; [now rewrite N.eqb_refl|].
  destruct (N.eqb_spec x c) as [->|]; [exfalso; apply H; now left|]. rewrite IH; [reflexivity|]. intros G; apply H; now right.
Qed.
Lemma before_none c f : ~ In c f -> before c f = f.
Proof.
  induction f as [|x f IH]; intros H; cbn; [reflexivity|].
  destruct (N.eqb_spec x c) as [->|]; [exfalso; apply H; now left|]. rewrite IH; [reflexivity|]. intros G; apply H; now right.
Qed.
Lemma after_app c f u : ~ In c f -> after c (f ++ c :: u) = Some u.
Proof.
  induction f as [|x f IH]; intros H; cbn; [now rewrite N.eqb_refl|].
  destruct (N.eqb_spec x c) as [->|]; [exfalso; apply H; now left|]. apply IH. intros G; apply H; now right.
Qed.
Lemma contains_In c s : contains s c = true <-> In c s.
Proof.
  unfold contains. rewrite existsb_exists. split.
  - intros (x & H & E). apply N.eqb_eq in E as ->. exact H.
  - intros H. exists c. split; [exact H|apply N.eqb_refl].
Qed.
Lemma contains_not c s : ~ In c s -> contains s c = false.
Proof. intros H. destruct (contains s c) eqn:E; [|reflexivity]. apply contains_In in E. contradiction. Qed.

Lemma slice_mid {A} (p u t : list A) : @slice ParserError A (p ++ u ++ t) (List.length p) (List.length p + List.length u) = Ok u.
Proof.
  rewrite slice_ok; [|lia|rewrite !app_length; lia].
  rewrite skipn_app_exact. replace (_ + _ - _) with (List.length u) by lia. now rewrite firstn_app_exact.
Qed.
Lemma slice_inner {A} (p u : list A) c : @slice ParserError A (p ++ u ++ [c]) (List.length p) (List.length (p ++ u ++ [c]) - 1) = Ok u.
Proof. replace (_ - 1) with (List.length p + List.length u) by (rewrite !app_length; cbn; lia). apply slice_mid. Qed.




Lemma transpose_lit_eq {A} (vs m : list (list A)) r c : 0 < r -> 0 < c -> shape vs r c -> shape m c r -> transpose_of vs m ->
  @transpose_lit ParserError A vs = Ok m.
Proof.
  intros Hr Hc [V1 V2] [M1 M2] Ht. unfold transpose_lit.
  destruct vs as [|v0 vs]; [cbn in V1; lia|]. unfold idx at 1. cbn [nth_error unwrap bind].
  assert (V3 : List.length v0 = c) by (inversion V2; assumption). rewrite V3. set (ws := v0 :: vs) in *.
  assert (Hd : exists d : A, True) by (destruct v0 as [|d v0]; [cbn in V3; lia|now exists d]).
  destruct Hd as [d _].
  assert (Hrow : forall i, i < c -> mapM (fun r => idx r i) ws = @Ok ParserError _ (map (fun r => nth i r d) ws)).
  { intros i Hi. apply mapM_total. intros w Hw. apply idx_nth. rewrite Forall_forall in V2. rewrite (V2 w Hw). exact Hi. }
  rewrite (mapM_total _ (fun i => map (fun r => nth i r d) ws)).
  2:{ intros i Hi. apply in_seq in Hi. apply Hrow. lia. }
  f_equal. apply nth_ext with (d := []) (d' := []); [rewrite map_length, seq_length; congruence|].
  intros i Hi. rewrite map_length, seq_length in Hi.
  rewrite nth_indep with (d' := map (fun r => nth i r d) ws) by (rewrite map_length, seq_length; exact Hi).
  assert (E1 : nth i (map (fun i0 => map (fun r => nth i0 r d) ws) (seq 0 c)) (map (fun r => nth i r d) ws) = map (fun r => nth i r d) ws).
  { rewrite (map_nth (fun i0 => map (fun r => nth i0 r d) ws) (seq 0 c) i i). rewrite seq_nth by exact Hi. reflexivity. }
  rewrite E1.
  assert (Hmi : nth_error m i = Some (nth i m [])) by (apply nth_error_nth'; lia).
  assert (Hri : List.length (nth i m []) = List.length ws).
  { rewrite V1. rewrite Forall_forall in M2. apply M2. apply nth_In. lia. }
  apply nth_ext with (d := d) (d' := d); [rewrite map_length; congruence|].
  intros j Hj. rewrite map_length in Hj.
  specialize (Ht i j). rewrite Hmi in Ht.
  rewrite (nth_error_nth' (nth i m []) d) in Ht by (rewrite Hri; exact Hj).
  rewrite (nth_error_nth' ws [] Hj) in Ht.
  assert (Hwj : List.length (nth j ws []) = c) by (rewrite Forall_forall in V2; apply V2; now apply nth_In).
  rewrite (nth_error_nth' (nth j ws []) d) in Ht by (rewrite Hwj; exact Hi). injection Ht as Ht. rewrite Ht.
  rewrite nth_indep with (d' := nth i [] d) by (rewrite map_length; exact Hj).
  now rewrite (map_nth (fun r => nth i r d) ws [] j).
Qed.

Lemma byte_len_text s : ascii_text s -> byte_len s = List.length s.
Proof.
  intros H. apply byte_len_ascii. intros (c & Hc & Hb). unfold ascii_text in H. rewrite Forall_forall in H.
  specialize (H c Hc). congruence.
Qed.
Lemma join_ascii ss : Forall ascii_text ss -> ascii_text (join [44%N] ss).
Proof.
  induction 1 as [|s ss Hs H IH]; [constructor|]. destruct ss as [|s2 ss]; [exact Hs|].
  change (join [44%N] (s :: s2 :: ss)) with (s ++ [44%N] ++ join [44%N] (s2 :: ss)).
  apply Forall_app; split; [exact Hs|]. constructor; [reflexivity|exact IH].
Qed.

Lemma hd_in_no_prefix s g : s <> [] -> ~ In (hd 0%N s) (map (hd 0%N) (map lit reserved)) -> In g reserved -> starts_with s (lit g ++ [40%N]) = false.
Proof.
  intros Hne H Hg. destruct s as [|c s]; [congruence|]. cbn [hd] in H.
  assert (Hin : In (hd 0%N (lit g)) (map (hd 0%N) (map lit reserved))) by (apply in_map, in_map, Hg).
  assert (Hl : exists y t, lit g = y :: t).
  { cbn in Hg. repeat (destruct Hg as [<-|Hg]; [do 2 eexists; reflexivity|]). easy. }
  destruct Hl as (y & t & Hl). rewrite Hl in Hin |- *. cbn [hd] in Hin. cbn [app starts_with].
  destruct (N.eqb_spec c y) as [->|]; [contradiction|reflexivity].
Qed.
Lemma reserved_initials x : ~ In x (map ch ["s"; "c"; "t"; "a"; "r"; "l"; "d"; "i"; "I"; "D"; "e"]%string) -> ~ In x (map (hd 0%N) (map lit reserved)).
Proof. intros H Hin. apply H. vm_compute in Hin |- *. tauto. Qed.

Lemma call_last f u c0 : last (f ++ 40%N :: u ++ [41%N]) c0 = 41%N.
Proof. rewrite last_app, last_cons, last_last. reflexivity. Qed.



Section Body2.
Variable rec : str -> res ParserError (AST N).
Lemma atom_no_prefix s c0 cl : (forall g, In g reserved -> starts_with s (lit g ++ [40%N]) = false) ->
  parse_atom rec s c0 cl =
  (if (contains s 40%N && negb (N.eqb c0 40) && N.eqb cl 41)%bool then parse_call rec s
   else if (is_alphabetic c0 || N.eqb c0 92)%bool then
     do ok <- is_valid_var_name s;
     if (ok : bool) then Ok (AVar s) else Err (InvalidVariableName s)
   else if (N.eqb c0 123 && N.eqb cl 125)%bool then
     do inner <- slice s 1 (List.length s - 1);
     do es <- mapM rec (get_args inner);
     Ok (AList es)
   else parse_value rec s).
Proof.
  intros H. unfold parse_atom. rewrite function_look_up_eq, advanced_look_up_eq.
  rewrite try_prefix_none; [rewrite try_prefix_none; [reflexivity|]|].
  - intros a p Hin. apply H. cbn in Hin |- *. repeat (destruct Hin as [Hin|Hin]; [injection Hin as <- <-; tauto|]). easy.
  - intros a p Hin. apply H. cbn in Hin |- *. repeat (destruct Hin as [Hin|Hin]; [injection Hin as <- <-; tauto|]). easy.
Qed.
Lemma mapM_args ss aa : (forall s a, In s ss -> In (s, a) (combine ss aa) -> rec s = Ok a) -> List.length ss = List.length aa ->
  mapM rec ss = Ok aa.
Proof.
  revert aa; induction ss as [|s ss IH]; intros [|a aa] H Hl; cbn in Hl; try discriminate; [reflexivity|].
  cbn [mapM]. rewrite (H s a) by (cbn; auto). cbn [bind]. rewrite (IH aa); [reflexivity| |lia].
  intros s' a' H1 H2. apply H; cbn; auto.
Qed.
Lemma mapM_forall2 ss aa : Forall2 (fun s a => rec s = Ok a) ss aa -> mapM rec ss = Ok aa.
Proof. intros H. now apply mapM_ok_iff. Qed.

(** A built-in with literal name. *)
Lemma body_call f u : name f -> inner u ->
  parse_body rec (f ++ 40%N :: u ++ [41%N]) = parse_atom rec (f ++ 40%N :: u ++ [41%N]) (hd 0%N f) 41%N.
Proof.
  intros Hf Hu. pose proof Hf as (c & t & Hft & Ha & Hc & _).
  rewrite (body_atom rec _ c (t ++ 40%N :: u ++ [41%N])).
  - rewrite call_last, Hft. reflexivity.
  - now apply call_neutral.
  - rewrite Hft. reflexivity.
  - destruct Hc as (H & _). intros ->. apply H. vm_compute. tauto.
  - rewrite call_scan by assumption. now apply hid_none.
Qed.
Lemma root_prefix f u : lit f ++ 40%N :: u = (lit f ++ [40%N]) ++ u.
Proof. now rewrite <- app_assoc. Qed.

Lemma body_function_gen op f u : In (op, f) functions -> inner u ->
  parse_body rec (lit f ++ 40%N :: u ++ [41%N]) = (do a <- rec u; Ok (AOp op a (AScalar n0))).
Proof.
  intros Hf Hu. rewrite body_call; [|apply reserved_name; clear -Hf; cbn in Hf |- *;
    repeat (destruct Hf as [Hf|Hf]; [injection Hf as <- <-; tauto|]); easy|exact Hu].
  assert (Hat : parse_atom rec (lit f ++ 40%N :: u ++ [41%N]) (hd 0%N (lit f)) 41%N
     = parse_builtin rec (lit f ++ 40%N :: u ++ [41%N]) op (lit f ++ [40%N])).
  { clear -Hf. cbn in Hf. repeat (destruct Hf as [Hf|Hf]; [injection Hf as <- <-; destruct u; reflexivity|]). easy. }
  rewrite Hat. unfold parse_builtin. rewrite root_prefix at 1 2. rewrite slice_inner. cbn [bind].
  replace (op_eqb op ORoot) with false.
  - reflexivity.
  - clear -Hf. cbn in Hf. repeat (destruct Hf as [Hf|Hf]; [injection Hf as <- <-; reflexivity|]). easy.
Qed.
Lemma body_function op f u a : In (op, f) functions -> inner u -> rec u = Ok a ->
  parse_body rec (lit f ++ 40%N :: u ++ [41%N]) = Ok (AOp op a (AScalar n0)).
Proof. intros Hf Hu Hrec. rewrite (body_function_gen op f u Hf Hu), Hrec. reflexivity. Qed.

Lemma body_root_gen ss : ss <> [] -> Forall neutral ss ->
  parse_body rec (lit "root" ++ 40%N :: join [44%N] ss ++ [41%N]) =
  match ss with
  | [a; b] => do l <- rec a; do r <- rec b; Ok (AOp ORoot l r)
  | _ => Err (PWrongNumberOfArgs (lit "root"))
  end.
Proof.
  intros Hne H. set (u := join [44%N] ss).
  assert (Hu : inner u) by now apply inner_join.
  rewrite body_call; [|apply reserved_name; cbn; tauto|exact Hu].
  assert (Hat : parse_atom rec (lit "root" ++ 40%N :: u ++ [41%N]) (hd 0%N (lit "root")) 41%N
    = parse_builtin rec (lit "root" ++ 40%N :: u ++ [41%N]) ORoot (lit "root" ++ [40%N])) by (clearbody u; destruct u; reflexivity).
  rewrite Hat.
  unfold parse_builtin. rewrite root_prefix at 1 2. rewrite slice_inner. cbn [bind op_eqb]. unfold u.
  rewrite get_args_of_join by assumption. reflexivity.
Qed.
Lemma body_root s1 s2 a b : neutral s1 -> neutral s2 -> rec s1 = Ok a -> rec s2 = Ok b ->
  parse_body rec (lit "root" ++ 40%N :: join [44%N] [s1; s2] ++ [41%N]) = Ok (AOp ORoot a b).
Proof.
  intros H1 H2 R1 R2. rewrite body_root_gen by (try discriminate; repeat constructor; assumption).
  rewrite R1; cbn [bind]; rewrite R2; reflexivity.
Qed.

Lemma body_user_call_gen f ss : name f -> ascii_text f -> ~ In f (map lit reserved) -> ss <> [] ->
  Forall neutral ss ->
  parse_body rec (f ++ 40%N :: join [44%N] ss ++ [41%N]) = (do aa <- mapM rec ss; Ok (AFun f aa)).
Proof.
  intros Hf Has Hres Hne Hss. set (u := join [44%N] ss).
  assert (Hu : inner u) by now apply inner_join.
  rewrite body_call by assumption.
  assert (Hf40 : ~ In 40%N f) by (intros Hin; eapply name_chars; eauto).
  rewrite atom_no_prefix.
  2:{ intros g Hg. rewrite starts_with_call; [| exact Hf40|].
      - apply str_eqb_neq. intros ->. apply Hres. now apply in_map.
      - intros Hin. eapply name_chars; [apply reserved_name, Hg|exact Hin|auto]. }
  replace (contains (f ++ 40%N :: u ++ [41%N]) 40%N) with true.
  2:{ symmetry. apply contains_In. apply in_app_iff. right. now left. }
  assert (Hc0 : N.eqb (hd 0%N f) 40 = false).
  { apply N.eqb_neq. destruct Hf as (c & t & -> & _). cbn [hd]. intros ->. apply Hf40. now left. }
  rewrite Hc0. cbn [negb andb N.eqb Pos.eqb].
  unfold parse_call. rewrite before_app by assumption. cbv zeta. rewrite byte_len_text by assumption.
  replace (List.length f + 1) with (List.length (f ++ [40%N])) by (rewrite app_length; reflexivity).
  replace (f ++ 40%N :: u ++ [41%N]) with ((f ++ [40%N]) ++ u ++ [41%N]) by (now rewrite <- app_assoc).
  rewrite slice_inner. cbn [bind]. unfold u. rewrite get_args_of_join by assumption.
  rewrite (name_valid f Hf). reflexivity.
Qed.
Lemma body_user_call f ss aa : name f -> ascii_text f -> ~ In f (map lit reserved) -> ss <> [] ->
  Forall neutral ss -> mapM rec ss = Ok aa ->
  parse_body rec (f ++ 40%N :: join [44%N] ss ++ [41%N]) = Ok (AFun f aa).
Proof. intros Hf Has Hres Hne Hss Hrec. rewrite body_user_call_gen, Hrec by assumption. reflexivity. Qed.

Lemma body_list_gen ss : ss <> [] -> Forall neutral ss ->
  parse_body rec (123%N :: join [44%N] ss ++ [125%N]) = (do aa <- mapM rec ss; Ok (AList aa)).
Proof.
  intros Hne Hss. set (u := join [44%N] ss).
  assert (Hu : inner u) by now apply inner_join.
  assert (Hpair : pair_of 123%N 125%N) by (vm_compute; tauto).
  rewrite (body_atom rec _ 123%N (u ++ [125%N])); [|now apply group_neutral|reflexivity|discriminate|rewrite group_scan by assumption; now apply hid_none].
  rewrite last_cons, last_last.
  rewrite atom_no_prefix by (intros g Hg; apply hd_in_no_prefix; [discriminate|apply reserved_initials; vm_compute; intuition discriminate|exact Hg]).
  rewrite andb_false_r. change (is_alphabetic 123%N || N.eqb 123 92)%bool with false. cbv iota. cbn [N.eqb Pos.eqb andb].
  change (123%N :: u ++ [125%N]) with ([123%N] ++ u ++ [125%N]). change 1 with (List.length [123%N]) at 1.
  rewrite slice_inner. cbn [bind]. unfold u. rewrite get_args_of_join by assumption. reflexivity.
Qed.
Lemma body_list ss aa : ss <> [] -> Forall neutral ss -> mapM rec ss = Ok aa ->
  parse_body rec (123%N :: join [44%N] ss ++ [125%N]) = Ok (AList aa).
Proof. intros Hne Hss Hrec. rewrite body_list_gen, Hrec by assumption. reflexivity. Qed.

(** The text of a vector or matrix literal reaches [parse_value]. *)
Lemma body_bracket ss : ss <> [] -> Forall neutral ss -> Forall ascii_text ss ->
  parse_body rec (91%N :: join [44%N] ss ++ [93%N]) =
  (if match ss with [] => true | [] :: _ => true | _ => false end then Err EmptyVec
   else
        do out <- mapM rec ss;
        let is_vec := forallb (fun a => match a with AVector _ => false | _ => true end) out in
        let is_mat := forallb (fun a => match a with AMatrix _ => false | _ => true end) out in
        if (is_vec && is_mat)%bool then Ok (AVector out)
        else if (is_mat && negb is_vec)%bool then
          do m <- mapM (fun a => match a with AVector v => Ok v | _ => Err NotRectMatrix end) out;
          do size <- (do r <- idx m 0; Ok (List.length r));
          if negb (forallb (fun r => Nat.eqb (List.length r) size) m) then Err NotRectMatrix
          else if row_major then Ok (AMatrix m)
          else do c <- transpose_lit m; Ok (AMatrix c)
        else Err (ParseValue (91%N :: join [44%N] ss ++ [93%N]))).
Proof.
  intros Hne Hss Has. set (u := join [44%N] ss).
  assert (Hu : inner u) by now apply inner_join.
  assert (Hpair : pair_of 91%N 93%N) by (vm_compute; tauto).
  rewrite (body_atom rec _ 91%N (u ++ [93%N])); [|now apply group_neutral|reflexivity|discriminate|rewrite group_scan by assumption; now apply hid_none].
  rewrite last_cons, last_last.
  rewrite atom_no_prefix by (intros g Hg; apply hd_in_no_prefix; [discriminate|apply reserved_initials; vm_compute; intuition discriminate|exact Hg]).
  rewrite andb_false_r. change (is_alphabetic 91%N || N.eqb 91 92)%bool with false. cbv iota. cbn [N.eqb Pos.eqb andb].
  unfold parse_value. change (contains (91%N :: u ++ [93%N]) 91%N) with true. cbn [negb].
  assert (Hbl : byte_len (91%N :: u ++ [93%N]) = List.length (91%N :: u ++ [93%N])).
  { apply byte_len_text. constructor; [reflexivity|]. apply Forall_app. split; [now apply join_ascii|]. now repeat constructor. }
  rewrite Hbl. replace (Nat.leb 2 (List.length (91%N :: u ++ [93%N]))) with true.
  2:{ symmetry. apply Nat.leb_le. cbn. rewrite app_length. cbn. lia. }
  change (@idx ParserError char (91%N :: u ++ [93%N]) 0) with (@Ok ParserError _ 91%N). cbn [bind N.eqb Pos.eqb].
  replace (@idx ParserError char (91%N :: u ++ [93%N]) (List.length (91%N :: u ++ [93%N]) - 1)) with (@Ok ParserError _ 93%N).
  2:{ symmetry. apply idx_ok. change (91%N :: u ++ [93%N]) with ((91%N :: u) ++ [93%N]). rewrite app_length. cbn [List.length].
      rewrite nth_error_app2 by (cbn [List.length]; lia). replace (_ - _ - _) with 0 by (cbn [List.length]; lia). reflexivity. }
  cbn [bind N.eqb Pos.eqb].
  change (91%N :: u ++ [93%N]) with ([91%N] ++ u ++ [93%N]). change 1 with (List.length [91%N]) at 1.
  rewrite slice_inner. cbn [bind]. cbv zeta.
  replace (get_args u) with ss by (unfold u; now rewrite get_args_of_join). reflexivity.
Qed.

Lemma nonempty_head (ss : list str) : Forall (fun s => s <> []) ss -> ss <> [] ->
  match ss with [] => true | [] :: _ => true | _ => false end = false.
Proof. intros H Hne. destruct ss as [|[|] ss]; [congruence| |reflexivity]. inversion H; congruence. Qed.

Lemma body_vector ss aa : ss <> [] -> Forall neutral ss -> Forall ascii_text ss -> Forall (fun s => s <> []) ss ->
  mapM rec ss = Ok aa -> Forall (fun a => match a with AVector _ | AMatrix _ => False | _ => True end) aa ->
  parse_body rec (91%N :: join [44%N] ss ++ [93%N]) = Ok (AVector aa).
Proof.
  intros Hne Hss Has Hnes Hrec Hv. rewrite body_bracket, nonempty_head by assumption. rewrite Hrec. cbn [bind]. cbv zeta.
  replace (forallb _ aa) with true; [replace (forallb _ aa) with true; [reflexivity|]|]; symmetry; apply forallb_forall; intros a Ha;
    rewrite Forall_forall in Hv; specialize (Hv a Ha); now destruct a.
Qed.

Lemma map_vec_mapM (vs : list (list (AST N))) :
  mapM (fun a => match a with AVector v => Ok v | _ => Err NotRectMatrix end) (map AVector vs) = @Ok ParserError _ vs.
Proof. induction vs as [|v vs IH]; [reflexivity|]. cbn [map mapM bind]. now rewrite IH. Qed.

Lemma body_matrix ss vs m r c : Forall neutral ss -> Forall ascii_text ss -> Forall (fun s => s <> []) ss ->
  mapM rec ss = Ok (map AVector vs) -> 0 < r -> 0 < c -> shape vs r c ->
  (if row_major then m = vs else shape m c r /\ transpose_of vs m) ->
  parse_body rec (91%N :: join [44%N] ss ++ [93%N]) = Ok (AMatrix m).
Proof.
  intros Hss Has Hnes Hrec Hr Hc Hsh Hm. pose proof (mapM_length _ _ _ Hrec) as Hlen. rewrite map_length in Hlen.
  destruct Hsh as [S1 S2]. assert (Hne : ss <> []) by (intros ->; cbn in Hlen; lia).
  rewrite body_bracket, nonempty_head by assumption. rewrite Hrec. cbn [bind]. cbv zeta.
  destruct vs as [|v vs]; [cbn in S1; lia|].
  change (forallb (fun a : AST N => match a with AVector _ => false | _ => true end) (map AVector (v :: vs))) with false.
  replace (forallb _ (map AVector (v :: vs))) with true.
  2:{ symmetry; apply forallb_forall. intros a Ha. apply in_map_iff in Ha as (w & <- & _). reflexivity. }
  cbn [andb negb]. rewrite map_vec_mapM. cbn [bind]. unfold idx at 1. cbn [nth_error unwrap bind].
  replace (forallb _ (v :: vs)) with true.
  2:{ symmetry; apply forallb_forall. intros w Hw. apply Nat.eqb_eq. rewrite Forall_forall in S2. rewrite (S2 w Hw). symmetry. apply S2. now left. }
  cbn [negb]. destruct row_major; [now rewrite Hm|]. destruct Hm as [M1 M2].
  rewrite (transpose_lit_eq (v :: vs) m r c); [reflexivity|assumption..|split; assumption|assumption|assumption].
Qed.

Lemma body_adv op f ss : In (op, f) [(AdvIntegral, "I"); (AdvDerivative, "D"); (AdvEquation, "eq")]%string -> ss <> [] -> Forall neutral ss ->
  parse_body rec (lit f ++ 40%N :: join [44%N] ss ++ [41%N]) =
  match op with
  | AdvDerivative =>
      match ss with
      | [f; x; a] => do pf <- rec f; do pa <- rec a; Ok (ADer pf x pa)
      | _ => Err (PWrongNumberOfArgs (lit "derivative"))
      end
  | AdvIntegral =>
      match ss with
      | [f; x; l; u] =>
          do pf <- rec f; do pl <- rec l; do pu <- rec u; Ok (AInt pf x pl pu)
      | _ => Err (PWrongNumberOfArgs (lit "integral"))
      end
  | AdvEquation =>
      do es <- mapM (parse_eq_entry rec) ss;
      Ok (AEq (flat_map (fun e => match e with inr q => [q] | inl _ => [] end) es)
              (flat_map (fun e => match e with inl v => [v] | inr _ => [] end) es))
  end.
Proof.
  intros Hf Hne Hss. set (u := join [44%N] ss).
  assert (Hu : inner u) by now apply inner_join.
  rewrite body_call; [|apply reserved_name; clear -Hf; cbn in Hf |- *; intuition congruence|exact Hu].
  assert (Hat : parse_atom rec (lit f ++ 40%N :: u ++ [41%N]) (hd 0%N (lit f)) 41%N
     = parse_advanced rec (lit f ++ 40%N :: u ++ [41%N]) op (lit f ++ [40%N])).
  { clear -Hf. clearbody u. cbn in Hf. repeat (destruct Hf as [Hf|Hf]; [injection Hf as <- <-; destruct u; reflexivity|]). easy. }
  rewrite Hat. unfold parse_advanced. rewrite root_prefix at 1 2. rewrite slice_inner. cbn [bind]. unfold u.
  rewrite get_args_of_join by assumption. reflexivity.
Qed.

Lemma eq_entry_var v : ~ In 61%N v -> parse_eq_entry rec v = Ok (inl v).
Proof. intros H. unfold parse_eq_entry. now rewrite contains_not. Qed.
Lemma eq_entry_equation l r a b : rec l = Ok a -> rec r = Ok b -> ~ In 61%N l -> ~ In 61%N r ->
  parse_eq_entry rec (l ++ 61%N :: r) = Ok (inr (if Nat.leb (byte_len r) (byte_len l) then (a, b) else (b, a))).
Proof.
  intros Hl Hr H1 H2. unfold parse_eq_entry.
  replace (contains (l ++ 61%N :: r) 61%N) with true by (symmetry; apply contains_In, in_app_iff; right; now left).
  cbn [negb]. rewrite before_app, after_app by assumption. cbn [unwrap bind]. rewrite before_none by assumption.
  destruct (Nat.leb _ _); rewrite Hl, Hr; reflexivity.
Qed.
End Body2.

(** ** The parser *)
Section Main.
Variable n : nat.
Hypothesis IHn : forall s a, List.length s < n -> expression s a -> forall fuel, List.length s < fuel -> parse_inner fuel s = Ok a.

Lemma expr_neutral_n : forall s a, List.length s < n -> expression s a -> neutral s.
Proof. intros s a _ H. eapply expression_neutral with (n := S (List.length s)); [lia|exact H]. Qed.

Lemma exprs_neutral ss aa : Forall2 expression ss aa -> Forall neutral ss.
Proof. induction 1 as [|s a ss aa Hs H IH]; constructor; [|exact IH]. eapply expression_neutral with (n := S (List.length s)); [lia|exact Hs]. Qed.
Lemma exprs_nonempty ss aa : Forall2 expression ss aa -> Forall (fun s => s <> []) ss.
Proof.
  induction 1 as [|s a ss aa Hs H IH]; constructor; [|exact IH]. destruct Hs as [Hs].
  eapply phrase_scan with (n := List.length s) in Hs; [apply Hs| |lia].
  intros. eapply expression_neutral; [|eassumption]. eassumption.
Qed.
Lemma exprs_parse ss aa fuel : Forall2 expression ss aa -> (forall s, In s ss -> List.length s < n /\ List.length s < fuel) ->
  mapM (parse_inner fuel) ss = Ok aa.
Proof.
  intros H Hl. apply mapM_forall2. induction H as [|s a ss aa Hs H IH]; constructor.
  - destruct (Hl s (or_introl eq_refl)). now apply IHn.
  - apply IH. intros; apply Hl; now right.
Qed.

Lemma atom_parse s a : atom expression s a -> List.length s <= n -> forall fuel, List.length s < fuel -> parse_inner fuel s = Ok a.
Proof.
  intros Hat Hl fuel Hf. pose proof (atom_scan expression n expr_neutral_n s a Hat Hl) as (Hn & Hne & Hsc).
  destruct fuel as [|fuel]; [lia|]. cbn [parse_inner].
  assert (Hsmall : forall p u c, s = p ++ u ++ [c] -> p <> [] -> List.length u < n /\ List.length u < fuel).
  { intros p u c -> Hp. rewrite !app_length in *. destruct p; [congruence|]. cbn in *. lia. }
  assert (Hargs : forall p ss c, s = p ++ join [44%N] ss ++ [c] -> p <> [] -> forall x, In x ss -> List.length x < n /\ List.length x < fuel).
  { intros p ss c Hs Hp x Hx. destruct (Hsmall _ _ _ Hs Hp). destruct (join_pieces [44%N] ss x Hx). lia. }
  assert (Hcall : forall f u, lit f ++ 40%N :: u ++ [41%N] = (lit f ++ [40%N]) ++ u ++ [41%N]) by (intros; now rewrite <- app_assoc).
  assert (Hnil : forall f, lit f ++ [40%N] <> []) by (intros f; destruct (lit f); discriminate).
  destruct Hat as [s x Hne' Hx|s Hs|s a Ha|op f s a Hf' Ha|s1 s2 a b Ha Hb|f ss aa Hfn Has Hres Hne' Haa
    |ss aa Hne' Haa|ss aa Hne' Has Haa Hv|ss vs m r c Has Haa Hr Hc Hsh Hm|f x p a b Ha Hx Hb|f x l u a b c Ha Hx Hb Hc|es xs Hne' Hes].
  - (* number *)
    destruct s as [|c0 t] eqn:Es; [congruence|]. rewrite <- Es in *.
    pose proof (number_chars s x Hx) as Hch.
    assert (Hd : is_digit c0 = true \/ c0 = 46%N) by (apply Hch; rewrite Es; now left).
    destruct (digit_or_dot c0 Hd) as (D1 & D2 & D3 & D4 & D5).
    rewrite (body_atom _ s c0 t Hn Es); [|intros ->; apply D1; vm_compute; tauto|].
    2:{ apply number_scan. exact Hch. }
    assert (Hno : forall x, In x brackets -> ~ In x s).
    { intros y Hy Hin. destruct (digit_or_dot y (Hch y Hin)) as (E1 & _). contradiction. }
    rewrite atom_no_prefix by (intros g Hg; apply starts_with_no_paren, Hno; vm_compute; tauto).
    rewrite (contains_not 40%N s) by (apply Hno; vm_compute; tauto). cbn [andb]. rewrite D4.
    apply N.eqb_neq in D5. rewrite D5. cbn [orb].
    rewrite (bracket_not c0 123%N) by (assumption || (vm_compute; tauto)). cbn [andb].
    unfold parse_value. rewrite (contains_not 91%N s) by (apply Hno; vm_compute; tauto). cbn [negb].
    destruct Hx as [_ Hx]. now rewrite Hx.
  - (* variable *)
    pose proof Hs as (c0 & t & Es & Hal & Hc & _). destruct Hc as (C1 & C2 & C3 & C4 & C5).
    rewrite (body_atom _ s c0 t Hn Es); [|intros ->; apply C1; vm_compute; tauto|].
    2:{ destruct (name_scan s Hs false 0 0%N 92%N) as [-> _]. now apply hid_none. }
    assert (H40 : ~ In 40%N s) by (intros Hin; exact (name_chars s 40%N Hs Hin (or_introl eq_refl))).
    rewrite atom_no_prefix by (intros g Hg; now apply starts_with_no_paren).
    rewrite (contains_not 40%N s H40). cbn [andb].
    replace (is_alphabetic c0 || N.eqb c0 92)%bool with true.
    2:{ symmetry. destruct Hal as [->| ->]; [reflexivity|]. apply orb_true_r. }
    rewrite (name_valid s Hs). reflexivity.
  - (* parentheses *)
    destruct (Hsmall [40%N] s 41%N eq_refl ltac:(discriminate)) as [S1 S2].
    change (ch "(") with 40%N. change (ch ")") with 41%N.
    rewrite body_wrapped; [|apply neutral_inner; eapply expr_neutral_n; eauto]. now rewrite (IHn s a).
  - (* function *)
    change (ch "(") with 40%N in *. change (ch ")") with 41%N in *.
    destruct (Hsmall (lit f ++ [40%N]) s 41%N (Hcall _ _) (Hnil _)) as [S1 S2].
    apply body_function; [exact Hf'|apply neutral_inner; eapply expr_neutral_n; eauto|now apply IHn].
  - (* root *)
    change (lit "root(") with (lit "root" ++ [40%N]) in *. change (ch ")") with 41%N in *. change (lit ",") with [44%N] in *.
    rewrite <- app_assoc in *. pose proof (Hargs (lit "root" ++ [40%N]) [s1; s2] 41%N (Hcall _ _) (Hnil _)) as Hsub.
    destruct (Hsub s1 ltac:(cbn; auto)), (Hsub s2 ltac:(cbn; auto)).
    apply body_root; try (eapply expr_neutral_n; [|eassumption]; assumption); now apply IHn.
  - (* call *)
    change (ch "(") with 40%N in *. change (ch ")") with 41%N in *. change (lit ",") with [44%N] in *.
    assert (Hc : f ++ 40%N :: join [44%N] ss ++ [41%N] = (f ++ [40%N]) ++ join [44%N] ss ++ [41%N]) by now rewrite <- app_assoc.
    pose proof (Hargs _ _ _ Hc ltac:(destruct f; discriminate)) as Hsub.
    apply body_user_call; try assumption; [eapply exprs_neutral; eauto|]. now apply exprs_parse.
  - (* list *)
    change (ch "{") with 123%N in *. change (ch "}") with 125%N in *. change (lit ",") with [44%N] in *.
    pose proof (Hargs [123%N] ss 125%N eq_refl ltac:(discriminate)) as Hsub.
    apply body_list; try assumption; [eapply exprs_neutral; eauto|]. now apply exprs_parse.
  - (* vector *)
    change (ch "[") with 91%N in *. change (ch "]") with 93%N in *. change (lit ",") with [44%N] in *.
    pose proof (Hargs [91%N] ss 93%N eq_refl ltac:(discriminate)) as Hsub.
    apply body_vector; [exact Hne'|eapply exprs_neutral; eauto|exact Has|eapply exprs_nonempty; eauto|now apply exprs_parse|exact Hv].
  - (* matrix *)
    change (ch "[") with 91%N in *. change (ch "]") with 93%N in *. change (lit ",") with [44%N] in *.
    pose proof (Hargs [91%N] ss 93%N eq_refl ltac:(discriminate)) as Hsub.
    apply (body_matrix _ ss vs m r c); [eapply exprs_neutral; eauto|exact Has|eapply exprs_nonempty; eauto|now apply exprs_parse|assumption..].
  - (* derivative *)
    change (lit "D(") with (lit "D" ++ [40%N]) in *. change (ch ")") with 41%N in *. change (lit ",") with [44%N] in *.
    rewrite <- app_assoc in *. pose proof (Hargs (lit "D" ++ [40%N]) [f; x; p] 41%N (Hcall _ _) (Hnil _)) as Hsub.
    destruct (Hsub f ltac:(cbn; auto)), (Hsub p ltac:(cbn; auto)).
    rewrite (body_adv _ AdvDerivative "D" [f; x; p]); [|cbn; tauto|discriminate|].
    2:{ repeat constructor; try (eapply expr_neutral_n; [|eassumption]; assumption). now apply arg_text_neutral. }
    rewrite (IHn f a) by assumption. cbn [bind]. rewrite (IHn p b) by assumption. reflexivity.
  - (* integral *)
    change (lit "I(") with (lit "I" ++ [40%N]) in *. change (ch ")") with 41%N in *. change (lit ",") with [44%N] in *.
    rewrite <- app_assoc in *. pose proof (Hargs (lit "I" ++ [40%N]) [f; x; l; u] 41%N (Hcall _ _) (Hnil _)) as Hsub.
    destruct (Hsub f ltac:(cbn; auto)), (Hsub l ltac:(cbn; auto)), (Hsub u ltac:(cbn; auto)).
    rewrite (body_adv _ AdvIntegral "I" [f; x; l; u]); [|cbn; tauto|discriminate|].
    2:{ repeat constructor; try (eapply expr_neutral_n; [|eassumption]; assumption). now apply arg_text_neutral. }
    rewrite (IHn f a) by assumption. cbn [bind]. rewrite (IHn l b) by assumption. cbn [bind]. rewrite (IHn u c) by assumption. reflexivity.
  - (* equations *)
    change (lit "eq(") with (lit "eq" ++ [40%N]) in *. change (ch ")") with 41%N in *. change (lit ",") with [44%N] in *.
    rewrite <- app_assoc in *. pose proof (Hargs (lit "eq" ++ [40%N]) es 41%N (Hcall _ _) (Hnil _)) as Hsub.
    rewrite (body_adv _ AdvEquation "eq" es); [|cbn; tauto|exact Hne'|].
    2:{ clear -Hes Hsub IHn. induction Hes as [|e x es xs He Hes IH]; constructor.
        - eapply entry_neutral; [exact expr_neutral_n|exact He|]. apply Hsub; now left.
        - apply IH. intros; apply Hsub; now right. }
    assert (Hmap : mapM (parse_eq_entry (parse_inner fuel)) es = Ok xs).
    { clear -Hes Hsub IHn. apply mapM_ok_iff. induction Hes as [|e x es xs He Hes IH]; constructor.
      - destruct (Hsub e (or_introl eq_refl)) as [S1 S2]. destruct He as [v Hv Hin|l r a b Hla Hrb Hi1 Hi2]; [now apply eq_entry_var|].
        rewrite app_length in S1, S2. cbn in S1, S2.
        apply eq_entry_equation; try assumption; apply IHn; auto; lia.
      - apply IH. intros; apply Hsub; now right. }
    rewrite Hmap. reflexivity.
Qed.

Lemma phrase_parse k lead s a : phrase expression k lead s a -> List.length s <= n -> forall fuel, List.length s < fuel -> parse_inner fuel s = Ok a.
Proof.
  induction 1 as [lead s a Ha|k lead s a H IH|k s a H IH|k lead c op l r a b Hop Has Hl IHl Hr IHr
     |k lead c op l r a b Hop Has Hl IHl Hr IHr|r b Hr IHr|k c op r b Hop Hns Hr IHr|lead l r a b Hj Hl IHl Hr IHr]; intros Hlen fuel Hf.
  - now apply atom_parse.
  - now apply IH.
  - now apply IH.
  - rewrite app_length in Hlen, Hf. cbn in Hlen, Hf. destruct fuel as [|fuel]; [lia|]. cbn [parse_inner].
    destruct (phrase_scan expression n expr_neutral_n _ _ _ _ Hl ltac:(lia)) as (L1 & L2 & L3).
    destruct (phrase_scan expression n expr_neutral_n _ _ _ _ Hr ltac:(lia)) as (R1 & R2 & R3).
    destruct (operators_symbol _ _ _ Hop) as [Hc Hk]. destruct (op_not_bracket c op Hc) as [B1 B2].
    destruct (op_not_digit c op Hc) as [D1 D2].
    change (l ++ c :: r) with (l ++ [c] ++ r).
    rewrite (body_split _ op l [c] r).
    + rewrite IHr by lia. cbn [bind]. destruct l; [congruence|]. rewrite IHl by (cbn in *; lia). reflexivity.
    + apply neutral_app; [exact L1|]. unfold neutral. cbn [app run]. now rewrite run_not_bracket.
    + destruct l; discriminate.
    + intros Hh. rewrite hd_app in Hh by assumption. now apply paren_scan_goes_on.
    + cbn [app]. rewrite (scan2_app _ _ _ _ _ _ _ _ L1), (scan2_op _ _ _ _ _ _ _ Hc R2).
      destruct (L3 (false || true)%bool 0 0%N 92%N) as (A & A1 & A2); [auto|].
      destruct (R3 false (S (0 + List.length l)) (nextp2 (0 + List.length l) (last l 92%N)) c) as (B & G1 & G2); [discriminate|].
      rewrite hid_none in A1 by reflexivity. rewrite hid_none in G1 by assumption. rewrite A1, G1. cbn [app plus].
      unfold sym_entry. rewrite Hc. replace (Nat.eqb (List.length l) 0) with false by (destruct l; [congruence|reflexivity]).
      cbn [andb app List.length]. apply select_left with (k := k); assumption.
  - rewrite app_length in Hlen, Hf. cbn in Hlen, Hf. destruct fuel as [|fuel]; [lia|]. cbn [parse_inner].
    destruct (phrase_scan expression n expr_neutral_n _ _ _ _ Hl ltac:(lia)) as (L1 & L2 & L3).
    destruct (phrase_scan expression n expr_neutral_n _ _ _ _ Hr ltac:(lia)) as (R1 & R2 & R3).
    destruct (operators_symbol _ _ _ Hop) as [Hc Hk]. destruct (op_not_bracket c op Hc) as [B1 B2].
    destruct (op_not_digit c op Hc) as [D1 D2].
    change (l ++ c :: r) with (l ++ [c] ++ r).
    rewrite (body_split _ op l [c] r).
    + rewrite IHr by lia. cbn [bind]. destruct l; [congruence|]. rewrite IHl by (cbn in *; lia). reflexivity.
    + apply neutral_app; [exact L1|]. unfold neutral. cbn [app run]. now rewrite run_not_bracket.
    + destruct l; discriminate.
    + intros Hh. rewrite hd_app in Hh by assumption. now apply paren_scan_goes_on.
    + cbn [app]. rewrite (scan2_app _ _ _ _ _ _ _ _ L1), (scan2_op _ _ _ _ _ _ _ Hc R2).
      destruct (L3 (false || true)%bool 0 0%N 92%N) as (A & A1 & A2); [auto|].
      destruct (R3 false (S (0 + List.length l)) (nextp2 (0 + List.length l) (last l 92%N)) c) as (B & G1 & G2).
      { destruct k; [lia|discriminate]. }
      rewrite hid_none in A1 by reflexivity. rewrite hid_none in G1 by assumption. rewrite A1, G1. cbn [app plus].
      unfold sym_entry. rewrite Hc. replace (Nat.eqb (List.length l) 0) with false by (destruct l; [congruence|reflexivity]).
      cbn [andb app List.length]. apply select_right with (k := k); assumption.
  - cbn in Hlen, Hf. destruct fuel as [|fuel]; [lia|]. cbn [parse_inner].
    destruct (phrase_scan expression n expr_neutral_n _ _ _ _ Hr ltac:(lia)) as (R1 & R2 & R3).
    change (ch "-" :: r) with ([] ++ [ch "-"] ++ r). rewrite (body_split _ ONeg [] [ch "-"] r).
    + rewrite IHr by lia. reflexivity.
    + exact R1.
    + discriminate.
    + discriminate.
    + cbn [app]. rewrite (scan2_op _ (ch "-") _ _ _ _ OSub eq_refl R2).
      destruct (R3 false 1 (nextp2 0 92%N) (ch "-")) as (B & G1 & G2); [discriminate|].
      rewrite hid_none in G1 by reflexivity. rewrite G1. cbn [app List.length].
      change (sym_entry 0 (ch "-")) with [(ONeg, 0, 1)]. apply (select_right 4 [] (ONeg, 0, 1) B); [reflexivity|reflexivity|constructor|].
      eapply Forall_impl; [|exact G2]. intros e; apply ge_mono; lia.
  - cbn in Hlen, Hf. destruct fuel as [|fuel]; [lia|]. cbn [parse_inner].
    destruct (phrase_scan expression n expr_neutral_n _ _ _ _ Hr ltac:(lia)) as (R1 & R2 & R3).
    destruct (operators_symbol _ _ _ Hop) as [Hc Hk]. destruct (op_not_bracket c op Hc) as [B1 B2].
    destruct (op_not_digit c op Hc) as [D1 D2].
    change (c :: r) with ([] ++ [c] ++ r). rewrite (body_split _ op [] [c] r).
    + rewrite IHr by lia. reflexivity.
    + unfold neutral. cbn [app run]. now rewrite run_not_bracket.
    + discriminate.
    + cbn [app hd]. intros ->. discriminate Hc.
    + cbn [app]. rewrite (scan2_op _ _ _ _ _ _ _ Hc R2).
      destruct (R3 false 1 (nextp2 0 92%N) c) as (B & G1 & G2).
      { destruct k; [cbn; lia|discriminate]. }
      rewrite hid_none in G1 by assumption. rewrite G1. cbn [app List.length].
      unfold sym_entry. rewrite Hc. replace (op_eqb op OSub) with false by (destruct op; try reflexivity; congruence).
      rewrite andb_false_r. cbn [app]. destruct (left_assoc k) eqn:Ek.
      * apply (select_left k [] (op, 0, 1) B); [exact Hk|exact Ek|constructor|exact G2].
      * apply (select_right k [] (op, 0, 1) B); [exact Hk|exact Ek|constructor|exact G2].
  - pose proof Hj as (l' & c & d & r' & El & Er & Hu & Hb).
    rewrite app_length in Hlen, Hf. destruct fuel as [|fuel]; [lia|]. cbn [parse_inner].
    destruct (phrase_scan expression n expr_neutral_n _ _ _ _ Hl) as (L1 & L2 & L3); [rewrite El, app_length; cbn; rewrite El, app_length in Hlen; cbn in Hlen; lia|].
    destruct (phrase_scan expression n expr_neutral_n _ _ _ _ Hr ltac:(lia)) as (R1 & R2 & R3).
    change (l ++ r) with (l ++ [] ++ r). rewrite (body_split _ OHiddenMult l [] r).
    + assert (1 <= List.length l) by (destruct l; [congruence|cbn; lia]).
      rewrite IHr by lia. cbn [bind]. destruct l as [|x l0] eqn:E; [congruence|]. rewrite <- E in *.
      assert (1 <= List.length r) by (destruct r; [congruence|cbn; lia]). rewrite IHl by lia. reflexivity.
    + now apply neutral_app.
    + destruct l; [congruence|discriminate].
    + intros Hh. rewrite hd_app in Hh by assumption. now apply paren_scan_goes_on.
    + cbn [app]. rewrite (scan2_app _ _ _ _ _ _ _ _ L1).
      destruct (L3 (false || match r with [] => false | _ => true end)%bool 0 0%N 92%N) as (A & A1 & A2); [auto|].
      destruct (R3 false (0 + List.length l) (cp2 l 0 0%N 92%N) (last l 92%N)) as (B & G1 & G2); [discriminate|].
      rewrite hid_none in A1 by reflexivity. rewrite A1, G1. cbn [app plus List.length].
      assert (Hhid : hid (List.length l) (cp2 l 0 0%N 92%N) (last l 92%N) (hd 0%N r) = [(OHiddenMult, List.length l, 0)]).
      { rewrite Er. cbn [hd]. rewrite El at 2 3. rewrite last_last, cp2_app. cbn [cp2].
        unfold hid. replace (N.eqb (nextp2 (0 + List.length l') (last l' 92%N)) 95) with false.
        2:{ symmetry. apply N.eqb_neq. unfold nextp2. destruct (Nat.ltb_spec 1 (0 + List.length l')); [|discriminate].
            destruct l' as [|y l']; [cbn in *; lia|]. rewrite (last_def y l' 92%N (ch "0")). exact Hu. }
        cbn [negb]. rewrite andb_true_r.
        replace (_ || _)%bool with true; [reflexivity|]. symmetry. apply orb_true_iff.
        destruct Hb as [[H1 H2]|[-> ->]]; [left|right; reflexivity]. rewrite H1. cbn [andb].
        destruct H2 as [->|H2]; [reflexivity|]. cbn in H2. destruct H2 as [<-|[<-|[<-|[]]]]; vm_compute; reflexivity. }
      rewrite Hhid. cbn [app]. apply select_right with (k := 7); [reflexivity|reflexivity| |exact G2].
      exact A2.
Qed.
End Main.

Theorem expression_parse s a fuel : expression s a -> List.length s < fuel -> parse_inner fuel s = Ok a.
Proof.
  revert s a fuel. assert (G : forall n s a, List.length s < n -> expression s a -> forall fuel, List.length s < fuel -> parse_inner fuel s = Ok a).
  { induction n as [|n IH]; intros s a Hs H fuel Hf; [lia|]. destruct H as [H]. eapply phrase_parse with (n := n); [exact IH|exact H|lia|exact Hf]. }
  intros s a fuel H Hf. eapply G; [|exact H|exact Hf]. apply Nat.lt_succ_diag_r.
Qed.
End Parse.
