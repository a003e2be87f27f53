(** * ParserTop: [parse] as a whole: enough fuel, white space, brackets. *)
From Coq Require Import List NArith ZArith Bool Lia Arith String.
From Verif Require Import Base BaseFacts F64 Num Types Helpers Parser EvalTotal ParserBase GrammarSpec
  ParserGrammar ParserGrammar2 ParserGrammar3 ParserSpec.
Import ListNotations.

Section Top.
Context {N : Num} {En : Env}.

(** ** More fuel never changes the result *)
Section Mono.
Variables rec rec' : str -> res ParserError (AST N).
Hypothesis Hrec : forall s, rle (rec s) (rec' s).

Ltac rle1 :=
  match goal with
  | |- rle ?a ?a => apply rle_refl
  | |- rle (bind _ _) (bind _ _) => apply rle_bind; [|intros]
  | |- rle (rec _) (rec' _) => apply Hrec
  | |- rle (mapM _ _) (mapM _ _) => apply rle_mapM; intros
  | |- rle (if ?b then _ else _) _ => destruct b
  | |- rle (match ?x with _ => _ end) _ => destruct x
  end.

Lemma parse_value_mono s : rle (parse_value rec s) (parse_value rec' s).
Proof. unfold parse_value. cbv zeta. repeat rle1. Qed.
Lemma parse_split_mono s e : rle (parse_split rec s e) (parse_split rec' s e).
Proof. unfold parse_split. repeat rle1. Qed.
Lemma parse_builtin_mono s op p : rle (parse_builtin rec s op p) (parse_builtin rec' s op p).
Proof. unfold parse_builtin. repeat rle1. Qed.
Lemma parse_eq_entry_mono s : rle (parse_eq_entry rec s) (parse_eq_entry rec' s).
Proof. unfold parse_eq_entry. cbv zeta. repeat rle1. Qed.
Lemma parse_advanced_mono s op p : rle (parse_advanced rec s op p) (parse_advanced rec' s op p).
Proof.
  unfold parse_advanced. cbv zeta. apply rle_bind; [apply rle_refl|intros u].
  destruct op; repeat rle1. apply parse_eq_entry_mono.
Qed.
Lemma parse_call_mono s : rle (parse_call rec s) (parse_call rec' s).
Proof. unfold parse_call. cbv zeta. repeat rle1. Qed.
Lemma try_prefix_mono {A} s (l : list (A * str)) k k' o o' :
  (forall a p, rle (k a p) (k' a p)) -> rle o o' -> rle (try_prefix s l k o) (try_prefix s l k' o').
Proof. intros Hk Ho. induction l as [|[a p] l IH]; cbn [try_prefix]; [exact Ho|]. destruct (starts_with s p); auto. Qed.
Lemma parse_atom_mono s c0 cl : rle (parse_atom rec s c0 cl) (parse_atom rec' s c0 cl).
Proof.
  unfold parse_atom. apply try_prefix_mono; [intros; apply parse_builtin_mono|].
  apply try_prefix_mono; [intros; apply parse_advanced_mono|].
  destruct (_ && _)%bool; [apply parse_call_mono|]. destruct (_ || _)%bool; [apply rle_refl|].
  destruct (_ && _)%bool; [repeat rle1|apply parse_value_mono].
Qed.
Lemma parse_body_mono s : rle (parse_body rec s) (parse_body rec' s).
Proof.
  unfold parse_body. destruct s as [|c0 t]; [apply rle_refl|]. cbv zeta.
  destruct (paren_scan (c0 :: t) 0 true) as [po chk]. repeat rle1; [apply parse_split_mono|apply parse_atom_mono].
Qed.
End Mono.

Lemma parse_inner_mono f f' s : f <= f' -> rle (parse_inner f s) (parse_inner f' s).
Proof.
  revert f' s; induction f as [|f IH]; intros f' s H; [apply rle_fuel|]. destruct f' as [|f']; [lia|].
  cbn [parse_inner]. apply parse_body_mono. intros u. apply IH; lia.
Qed.

(** ** What every node the parser builds satisfies *)
Definition fine (x : AST N) : Prop :=
  match x with
  | AVector l | AList l => l <> []
  | AMatrix m => rect m
  | AScalar x => x = n0 \/ exists t, nparse t = Some x
  | AVar n => @is_valid_var_name _ ParserError n = Ok true
  | AFun n args => @is_valid_var_name _ ParserError n = Ok true /\ args <> []
  | _ => True
  end.
Definition all_fine (a : AST N) : Prop := forall x, node x a -> fine x.
Lemma all_fine_intro a : fine a -> (forall b, In b (children a) -> all_fine b) -> all_fine a.
Proof. intros Ha Hb x Hx. inversion Hx as [|b ? Hin Hn]; subst; [exact Ha|]. now apply (Hb b). Qed.
Lemma parse_inner_fine fuel s : List.length s < fuel ->
  sat all_fine (fun _ => True) (bad s) False (parse_inner fuel s).
Proof.
  intros H. apply parse_inner_sat; auto; clear.
  - intros x Hx. apply all_fine_intro; [exact Hx|intros b []].
  - intros op a b Ha Hb. apply all_fine_intro; [exact I|]. now intros x [<-|[<-|[]]].
  - intros n Hn. apply all_fine_intro; [exact Hn|intros b []].
  - intros n args Hn Ha Hall. apply all_fine_intro; [now split|]. rewrite Forall_forall in Hall. exact Hall.
  - intros l Hl Hall. apply all_fine_intro; [exact Hl|]. rewrite Forall_forall in Hall. exact Hall.
  - intros l Hl Hall. apply all_fine_intro; [exact Hl|]. rewrite Forall_forall in Hall. exact Hall.
  - intros l H. split; [apply (H _ (Node_here _))|]. apply Forall_forall. intros x Hx y Hy. apply H.
    apply (Node_below _ x); assumption.
  - intros m Hm Hall. apply all_fine_intro; [exact Hm|]. intros b Hb. apply in_concat in Hb as (r & Hr & Hb).
    rewrite Forall_forall in Hall. specialize (Hall r Hr). rewrite Forall_forall in Hall. auto.
  - intros e x l u He Hl Hu. apply all_fine_intro; [exact I|]. now intros b [<-|[<-|[<-|[]]]].
  - intros e x p He Hp. apply all_fine_intro; [exact I|]. now intros b [<-|[<-|[]]].
  - intros eqs sv Hall. apply all_fine_intro; [exact I|]. intros b Hb. apply in_flat_map in Hb as (q & Hq & Hb).
    rewrite Forall_forall in Hall. destruct (Hall q Hq) as [H1 H2]. now destruct Hb as [<-|[<-|[]]].
Qed.
Lemma parse_inner_no_fuel fuel s : List.length s < fuel -> parse_inner fuel s <> Fuel.
Proof. intros H E. pose proof (parse_inner_fine fuel s H) as G. rewrite E in G. exact G. Qed.
Lemma parse_inner_fuel f f' s : List.length s < f -> List.length s < f' -> parse_inner f s = parse_inner f' s.
Proof.
  intros H H'. destruct (Nat.le_ge_cases f f') as [L|L].
  - symmetry. apply rle_eq; [now apply parse_inner_mono|now apply parse_inner_no_fuel].
  - apply rle_eq; [now apply parse_inner_mono|now apply parse_inner_no_fuel].
Qed.

(** ** White space *)
Lemma space_white : is_whitespace 32%N = true.
Proof. reflexivity. Qed.
Lemma no_blanks_filter s : no_blanks s = filter (fun c => negb (N.eqb c 32)) s.
Proof. induction s as [|x s IH]; [reflexivity|]. cbn [no_blanks filter]. change (ch " ") with 32%N. destruct (N.eqb x 32); cbn [negb]; now rewrite IH. Qed.
Lemma no_blanks_app s t : no_blanks (s ++ t) = no_blanks s ++ no_blanks t.
Proof. rewrite !no_blanks_filter. apply filter_app. Qed.
Lemma no_blanks_rev s : no_blanks (rev s) = rev (no_blanks s).
Proof.
  induction s as [|x s IH]; [reflexivity|]. cbn [rev no_blanks]. rewrite no_blanks_app, IH. cbn [no_blanks].
  destruct (N.eqb x (ch " ")); [apply app_nil_r|reflexivity].
Qed.
Lemma no_blanks_idem s : no_blanks (no_blanks s) = no_blanks s.
Proof.
  induction s as [|x s IH]; [reflexivity|]. cbn [no_blanks]. destruct (N.eqb x (ch " ")) eqn:E; [exact IH|].
  cbn [no_blanks]. rewrite E. now rewrite IH.
Qed.
Lemma trim_start_blanks s : trim_start (no_blanks s) = no_blanks (trim_start s).
Proof.
  induction s as [|x s IH]; [reflexivity|]. cbn [no_blanks trim_start]. change (ch " ") with 32%N.
  destruct (N.eqb_spec x 32) as [->|Hx].
  - rewrite space_white. exact IH.
  - cbn [trim_start]. destruct (is_whitespace x); [exact IH|]. cbn [no_blanks]. change (ch " ") with 32%N.
    apply N.eqb_neq in Hx. now rewrite Hx.
Qed.
Lemma trim_blanks s : trim (no_blanks s) = no_blanks (trim s).
Proof. unfold trim. now rewrite trim_start_blanks, <- no_blanks_rev, trim_start_blanks, no_blanks_rev. Qed.
Lemma strip_spaces_eq s : strip_spaces s = no_blanks (trim s).
Proof. unfold strip_spaces. now rewrite no_blanks_filter. Qed.
Lemma parse_blanks s : parse (no_blanks s) = parse s.
Proof. unfold parse. cbv zeta. now rewrite !strip_spaces_eq, trim_blanks, no_blanks_idem. Qed.

Lemma trim_start_white w s : (forall c, In c w -> is_whitespace c = true) -> trim_start (w ++ s) = trim_start s.
Proof.
  induction w as [|x w IH]; intros H; [reflexivity|]. cbn [app trim_start]. rewrite (H x) by now left.
  apply IH. intros; apply H; now right.
Qed.
Lemma trim_start_all w : (forall c, In c w -> is_whitespace c = true) -> trim_start w = [].
Proof. intros H. rewrite <- (app_nil_r w). now apply trim_start_white. Qed.
Lemma trim_start_app s w : trim_start s <> [] -> trim_start (s ++ w) = trim_start s ++ w.
Proof.
  induction s as [|x s IH]; cbn [trim_start app]; [congruence|]. destruct (is_whitespace x); auto.
Qed.
Lemma trim_start_nil s : trim_start s = [] -> forall c, In c s -> is_whitespace c = true.
Proof.
  induction s as [|x s IH]; [intros _ c []|]. cbn [trim_start]. destruct (is_whitespace x) eqn:E; [|discriminate].
  intros H c [<-|Hc]; auto.
Qed.
Lemma trim_around w s w' : (forall c, In c w -> is_whitespace c = true) -> (forall c, In c w' -> is_whitespace c = true) ->
  trim (w ++ s ++ w') = trim s.
Proof.
  intros H H'. unfold trim. rewrite trim_start_white by assumption.
  destruct (trim_start s) as [|x t] eqn:E.
  - rewrite (trim_start_all (s ++ w')); [reflexivity|]. intros c Hc. apply in_app_iff in Hc as [Hc|Hc]; auto.
    now apply (trim_start_nil s).
  - rewrite trim_start_app by congruence. rewrite E, rev_app_distr, trim_start_white; [reflexivity|].
    intros c Hc. apply H'. now apply in_rev.
Qed.
Lemma trim_solid s : (forall c, In c s -> is_whitespace c = false) -> trim s = s.
Proof.
  intros H. assert (G : forall s, (forall c, In c s -> is_whitespace c = false) -> trim_start s = s).
  { clear. intros [|x s] H; [reflexivity|]. cbn [trim_start]. now rewrite (H x) by now left. }
  unfold trim. rewrite (G s H), G; [apply rev_involutive|]. intros c Hc. apply H. now apply in_rev.
Qed.
Lemma no_blanks_in c s : In c (no_blanks s) <-> In c s /\ c <> ch " ".
Proof. rewrite no_blanks_filter, filter_In. change (ch " ") with 32%N. rewrite negb_true_iff, N.eqb_neq. reflexivity. Qed.
Lemma no_blanks_length s : List.length (no_blanks s) <= List.length s.
Proof. induction s as [|x s IH]; cbn [no_blanks List.length]; [lia|]. destruct (N.eqb x (ch " ")); cbn [List.length]; lia. Qed.

(** The parser on a text whose white space is only blanks. *)
Lemma strip_only_blanks s : only_blanks s -> strip_spaces s = no_blanks s.
Proof.
  intros H. rewrite strip_spaces_eq, <- trim_blanks. apply trim_solid. intros c Hc.
  apply no_blanks_in in Hc as [Hc Hn]. destruct (is_whitespace c) eqn:E; [|reflexivity]. now apply H in E.
Qed.
Lemma parse_fuel s fuel : only_blanks s -> List.length (no_blanks s) < fuel -> parse s = parse_inner fuel (no_blanks s).
Proof. intros H Hf. unfold parse. cbv zeta. rewrite strip_only_blanks by assumption. apply parse_inner_fuel; lia. Qed.

(** ** Brackets *)
Lemma psum_count s : psum s = (Z.of_nat (count (ch "(") s) - Z.of_nat (count (ch ")") s))%Z.
Proof.
  induction s as [|x s IH]; [reflexivity|]. cbn [psum count]. rewrite IH. unfold dp.
  change (ch "(") with 40%N. change (ch ")") with 41%N.
  destruct (N.eqb_spec x 40) as [->|]; [cbn [N.eqb Pos.eqb]; lia|]. destruct (N.eqb x 41); lia.
Qed.
Lemma count_app c s t : count c (s ++ t) = count c s + count c t.
Proof. induction s as [|x s IH]; [reflexivity|]. cbn [app count]. lia. Qed.
Lemma count_blanks c s : c <> ch " " -> count c (no_blanks s) = count c s.
Proof.
  intros Hc. induction s as [|x s IH]; [reflexivity|]. cbn [no_blanks count].
  destruct (N.eqb_spec x (ch " ")) as [->|]; [|cbn [count]; lia].
  destruct (N.eqb_spec (ch " ") c); [congruence|lia].
Qed.
Lemma count_white c w : is_whitespace c = false -> (forall x, In x w -> is_whitespace x = true) -> count c w = 0.
Proof.
  intros Hc H. induction w as [|x w IH]; [reflexivity|]. cbn [count].
  destruct (N.eqb_spec x c) as [->|]; [pose proof (H c (or_introl eq_refl)); congruence|]. rewrite IH; [reflexivity|]. intros; apply H; now right.
Qed.
Lemma trim_start_split s : exists w, (forall c, In c w -> is_whitespace c = true) /\ s = w ++ trim_start s.
Proof.
  induction s as [|x s (w & H & E)]; [exists []; split; [intros c []|reflexivity]|]. cbn [trim_start].
  destruct (is_whitespace x) eqn:Ex.
  - exists (x :: w). split; [intros c [<-|Hc]; auto|]. cbn [app]. now f_equal.
  - exists []. split; [intros c []|reflexivity].
Qed.
Lemma trim_split s : exists w w', (forall c, In c w -> is_whitespace c = true) /\ (forall c, In c w' -> is_whitespace c = true) /\
  s = w ++ trim s ++ w'.
Proof.
  destruct (trim_start_split s) as (w & Hw & E). destruct (trim_start_split (rev (trim_start s))) as (v & Hv & E').
  exists w, (rev v). split; [exact Hw|]. split; [intros c Hc; apply Hv; now apply in_rev|].
  unfold trim. rewrite <- rev_app_distr, <- E', rev_involutive. exact E.
Qed.
Lemma count_strip c s : is_whitespace c = false -> count c (strip_spaces s) = count c s.
Proof.
  intros Hc. rewrite strip_spaces_eq, count_blanks by (intros ->; change (ch " ") with 32%N in Hc; rewrite space_white in Hc; discriminate).
  destruct (trim_split s) as (w & w' & H1 & H2 & E). rewrite E at 2. rewrite !count_app.
  rewrite (count_white c w Hc H1), (count_white c w' Hc H2). lia.
Qed.
Lemma parse_unbalanced s :
  (count (ch ")") s < count (ch "(") s -> parse s = Err UnmatchedOpenDelimiter) /\
  (count (ch "(") s < count (ch ")") s -> parse s = Err UnmatchedCloseDelimiter).
Proof.
  unfold parse. cbv zeta. rewrite <- (count_strip (ch "(") s), <- (count_strip (ch ")") s) by reflexivity.
  set (e := strip_spaces s). pose proof (psum_count e) as Hp. pose proof (paren_scan_fst e 0 true) as Hs.
  cbn [parse_inner]. unfold parse_body. destruct e as [|c0 t]; [split; intros H; cbn in H; lia|].
  cbv zeta. destruct (paren_scan (c0 :: t) 0 true) as [po chk]. cbn [fst] in Hs.
  split; intros H.
  - destruct (Z.ltb_spec 0 po); [reflexivity|lia].
  - destruct (Z.ltb_spec 0 po); [lia|]. destruct (Z.ltb_spec po 0); [reflexivity|lia].
Qed.

Lemma paren_scan_prefixes u : forall d rest chk, rest <> [] ->
  (forall p q, u = p ++ q -> (1 <= d + psum p)%Z) ->
  paren_scan (u ++ rest) d chk = paren_scan rest (d + psum u) chk.
Proof.
  induction u as [|x u IH]; intros d rest chk Hr H; [cbn [app psum]; now rewrite Z.add_0_r|].
  cbn [app paren_scan psum].
  assert (Hx : (1 <= d + dp x)%Z) by (pose proof (H [x] u eq_refl) as G; cbn [psum] in G; lia).
  assert (Hn : exists y l, u ++ rest = y :: l).
  { destruct (u ++ rest) eqn:E; [|eauto]. apply app_eq_nil in E as [_ E]; congruence. }
  destruct Hn as (y & l & Hn).
  assert (H' : forall p q, u = p ++ q -> (1 <= d + dp x + psum p)%Z).
  { intros p q E. pose proof (H (x :: p) q ltac:(cbn; now f_equal)) as G. cbn [psum] in G. lia. }
  unfold dp in Hx, H' |- *. destruct (N.eqb_spec x 40) as [->|E1].
  - cbn [N.eqb Pos.eqb]. rewrite IH by assumption. f_equal; lia.
  - destruct (N.eqb_spec x 41) as [->|E2].
    + replace (Z.eqb (d - 1) 0) with false by (symmetry; apply Z.eqb_neq; lia). cbn [andb].
      rewrite (IH (d - 1)%Z) by (auto; intros p q E; specialize (H' p q E); lia). f_equal; lia.
    + rewrite IH by (auto; intros p q E; specialize (H' p q E); lia). f_equal; lia.
Qed.
Lemma body_parens rec u : paren_balanced u ->
  parse_body rec (40%N :: u ++ [41%N]) = (do l <- rec u; Ok (AOp OParenths l (AScalar n0))).
Proof.
  intros [H0 H]. unfold parse_body. cbv zeta.
  rewrite last_cons, last_last.
  change (paren_scan (40%N :: u ++ [41%N]) 0 true) with (paren_scan (u ++ [41%N]) 1 true).
  rewrite paren_scan_prefixes; [|discriminate|intros p q E; specialize (H p q E); rewrite psum_count; lia].
  replace (1 + psum u)%Z with 1%Z by (rewrite psum_count; lia).
  change (paren_scan [41%N] 1 true) with (0%Z, true). cbv iota beta. cbn [Z.ltb Z.compare N.eqb Pos.eqb andb].
  change (40%N :: u ++ [41%N]) with ([40%N] ++ u ++ [41%N]). change 1 with (List.length [40%N]) at 1.
  now rewrite slice_inner.
Qed.
Lemma parse_parens s : only_blanks s -> paren_balanced s ->
  parse (40%N :: s ++ [41%N]) = (do a <- parse s; Ok (AOp OParenths a (AScalar n0))).
Proof.
  intros Hb Hp. assert (Hb' : only_blanks (40%N :: s ++ [41%N])).
  { intros c [<-|Hc] Hw; [discriminate|]. apply in_app_iff in Hc as [Hc|[<-|[]]]; [now apply Hb|discriminate]. }
  assert (E : no_blanks (40%N :: s ++ [41%N]) = 40%N :: no_blanks s ++ [41%N]).
  { cbn [no_blanks]. now rewrite no_blanks_app. }
  rewrite (parse_fuel _ (S (S (List.length (no_blanks s ++ [41%N])))) Hb') by (rewrite E; cbn; lia).
  rewrite E. cbn [parse_inner]. rewrite body_parens.
  - rewrite (parse_fuel s (S (List.length (no_blanks s ++ [41%N]))) Hb) by (rewrite app_length; lia). reflexivity.
  - destruct Hp as [Hp0 Hp]. split; [now rewrite !count_blanks by (vm_compute; discriminate)|].
    clear -Hp. assert (G : forall s p q, no_blanks s = p ++ q -> exists p' q', s = p' ++ q' /\ no_blanks p' = p /\ no_blanks q' = q).
    { clear. induction s as [|x s IH]; intros p q E.
      - cbn in E. symmetry in E. apply app_eq_nil in E as [-> ->]. now exists [], [].
      - cbn [no_blanks] in E. destruct (N.eqb x (ch " ")) eqn:Ex.
        + destruct (IH p q E) as (p' & q' & -> & H1 & H2). exists (x :: p'), q'. cbn [no_blanks app]. now rewrite Ex.
        + destruct p as [|y p].
          * cbn in E. subst q. exists [], (x :: s). cbn [no_blanks]. now rewrite Ex.
          * cbn in E. injection E as <- E. destruct (IH p q E) as (p' & q' & -> & H1 & H2).
            exists (x :: p'), q'. cbn [no_blanks app]. rewrite Ex. split; [reflexivity|]. split; congruence. }
    intros p q E. destruct (G s p q E) as (p' & q' & E' & <- & <-). rewrite !count_blanks by (vm_compute; discriminate). now apply (Hp p' q').
Qed.
End Top.
