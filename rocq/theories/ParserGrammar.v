(** * ParserGrammar: every expression of the grammar of [GrammarSpec] is parsed
    to its tree. *)
From Coq Require Import List NArith ZArith Bool Lia Arith String.
From Verif Require Import Base BaseFacts F64 Num Types Helpers Parser EvalTotal ParserBase GrammarSpec.
Import ListNotations.

(** ** Bracket depths *)
Definition st := (nat * nat * nat)%type.
Definition run1 (s : st) (x : char) : option st :=
  let '(p, b, c) := s in
  if N.eqb x 40 then Some (S p, b, c)
  else if N.eqb x 41 then match p with O => None | S p => Some (p, b, c) end
  else if N.eqb x 91 then Some (p, S b, c)
  else if N.eqb x 93 then match b with O => None | S b => Some (p, b, c) end
  else if N.eqb x 123 then Some (p, b, S c)
  else if N.eqb x 125 then match c with O => None | S c => Some (p, b, c) end
  else if N.eqb x 44 then (if Nat.eqb (p + b + c) 0 then None else Some s)
  else Some s.
Fixpoint run (s : st) (l : str) : option st :=
  match l with [] => Some s | x :: t => match run1 s x with Some s' => run s' t | None => None end end.
Definition O3 : st := (0, 0, 0).
Definition neutral (l : str) : Prop := run O3 l = Some O3.
Definition add3 (a b : st) : st := let '(p, q, r) := a in let '(x, y, z) := b in (p + x, q + y, r + z).

Lemma run_app s a b : run s (a ++ b) = match run s a with Some s' => run s' b | None => None end.
Proof. revert s; induction a as [|x a IH]; intros s; cbn; [reflexivity|]. destruct (run1 s x); auto. Qed.

Lemma run1_lift s s' x d : run1 s x = Some s' -> run1 (add3 s d) x = Some (add3 s' d).
Proof.
  destruct s as [[p b] c], d as [[dp db] dc]. unfold run1, add3.
  destruct (N.eqb x 40); [injection 1 as <-; reflexivity|].
  destruct (N.eqb x 41); [destruct p; [discriminate|injection 1 as <-; reflexivity]|].
  destruct (N.eqb x 91); [injection 1 as <-; reflexivity|].
  destruct (N.eqb x 93); [destruct b; [discriminate|injection 1 as <-; reflexivity]|].
  destruct (N.eqb x 123); [injection 1 as <-; reflexivity|].
  destruct (N.eqb x 125); [destruct c; [discriminate|injection 1 as <-; reflexivity]|].
  destruct (N.eqb x 44).
  - destruct (Nat.eqb_spec (p + b + c) 0); [discriminate|]. injection 1 as <-.
    destruct (Nat.eqb_spec (p + dp + (b + db) + (c + dc)) 0); [lia|reflexivity].
  - injection 1 as <-; reflexivity.
Qed.
Lemma run_lift l : forall s s' d, run s l = Some s' -> run (add3 s d) l = Some (add3 s' d).
Proof.
  induction l as [|x l IH]; intros s s' d; cbn; [now injection 1 as <-|].
  destruct (run1 s x) as [s1|] eqn:E; [|discriminate]. rewrite (run1_lift _ _ _ d E). apply IH.
Qed.
Lemma neutral_at l d : neutral l -> run d l = Some d.
Proof. intros H. pose proof (run_lift l O3 O3 d H) as H1. destruct d as [[p b] c]. exact H1. Qed.
Lemma neutral_nil : neutral []. Proof. reflexivity. Qed.
Lemma neutral_app a b : neutral a -> neutral b -> neutral (a ++ b).
Proof. intros Ha Hb. unfold neutral. rewrite run_app. unfold neutral in Ha. rewrite Ha. exact Hb. Qed.

(** Text between brackets: as above, but commas are allowed anywhere. *)
Definition runc1 (s : st) (x : char) : option st := if N.eqb x 44 then Some s else run1 s x.
Fixpoint runc (s : st) (l : str) : option st :=
  match l with [] => Some s | x :: t => match runc1 s x with Some s' => runc s' t | None => None end end.
Definition inner (l : str) : Prop := runc O3 l = Some O3.
Lemma runc_app s a b : runc s (a ++ b) = match runc s a with Some s' => runc s' b | None => None end.
Proof. revert s; induction a as [|x a IH]; intros s; cbn; [reflexivity|]. destruct (runc1 s x); auto. Qed.
Lemma inner_app a b : inner a -> inner b -> inner (a ++ b).
Proof. intros Ha Hb. unfold inner. rewrite runc_app. unfold inner in Ha. now rewrite Ha. Qed.
Lemma run_runc l : forall s s', run s l = Some s' -> runc s l = Some s'.
Proof.
  induction l as [|x l IH]; intros s s'; cbn [run runc]; [auto|]. unfold runc1.
  destruct (N.eqb_spec x 44) as [->|]; [|destruct (run1 s x); [apply IH|discriminate]].
  destruct s as [[p b] c]. unfold run1. cbn -[Nat.add]. destruct (Nat.eqb (p + b + c) 0); [discriminate|apply IH].
Qed.
Lemma neutral_inner l : neutral l -> inner l. Proof. apply run_runc. Qed.
Lemma runc1_lift s s' x d : runc1 s x = Some s' -> d <> O3 -> run1 (add3 s d) x = Some (add3 s' d).
Proof.
  unfold runc1. destruct (N.eqb_spec x 44) as [->|]; [|intros H _; now apply run1_lift].
  injection 1 as <-. intros Hd. destruct s as [[p b] c], d as [[x y] z]. unfold run1, add3. cbn -[Nat.add].
  destruct (Nat.eqb_spec (p + x + (b + y) + (c + z)) 0); [|reflexivity].
  exfalso; apply Hd. unfold O3. repeat f_equal; lia.
Qed.
Lemma runc_lift l : forall s s' d, runc s l = Some s' -> d <> O3 -> run (add3 s d) l = Some (add3 s' d).
Proof.
  induction l as [|x l IH]; intros s s' d; cbn; [now injection 1 as <-|].
  destruct (runc1 s x) as [s1|] eqn:E; [|discriminate]. intros H Hd. rewrite (runc1_lift _ _ _ d E Hd). now apply IH.
Qed.
Lemma inner_at l d : inner l -> d <> O3 -> run d l = Some d.
Proof. intros H Hd. pose proof (runc_lift l O3 O3 d H Hd) as H1. destruct d as [[p b] c]. exact H1. Qed.

(** A bracket group. *)
Definition pair_of (o c : char) : Prop := In (o, c) [(40%N, 41%N); (91%N, 93%N); (123%N, 125%N)].
Lemma pair_run o c : pair_of o c -> exists d, d <> O3 /\ run1 O3 o = Some d /\ run1 d c = Some O3.
Proof.
  intros H. unfold pair_of in H. cbn in H. destruct H as [H|[H|[H|[]]]]; injection H as <- <-.
  - exists (1, 0, 0). repeat split; discriminate || reflexivity.
  - exists (0, 1, 0). repeat split; discriminate || reflexivity.
  - exists (0, 0, 1). repeat split; discriminate || reflexivity.
Qed.
Lemma group_neutral o c u : pair_of o c -> inner u -> neutral (o :: u ++ [c]).
Proof.
  intros H Hu. destruct (pair_run o c H) as (d & Hd & H1 & H2). unfold neutral. cbn [run].
  rewrite H1, run_app, (inner_at u d Hu Hd). cbn. now rewrite H2.
Qed.

Lemma run_not_bracket s x : ~ In x brackets -> x <> 44%N -> run1 s x = Some s.
Proof.
  intros H H'. unfold run1. destruct s as [[p b] c].
  destruct (N.eqb_spec x 40) as [->|_]; [exfalso; apply H; cbn; tauto|].
  destruct (N.eqb_spec x 41) as [->|_]; [exfalso; apply H; cbn; tauto|].
  destruct (N.eqb_spec x 91) as [->|_]; [exfalso; apply H; cbn; tauto|].
  destruct (N.eqb_spec x 93) as [->|_]; [exfalso; apply H; cbn; tauto|].
  destruct (N.eqb_spec x 123) as [->|_]; [exfalso; apply H; cbn; tauto|].
  destruct (N.eqb_spec x 125) as [->|_]; [exfalso; apply H; cbn; tauto|].
  destruct (N.eqb_spec x 44) as [->|_]; congruence.
Qed.
Lemma run_not_bracket_in s x : ~ In x brackets -> s <> O3 -> run1 s x = Some s.
Proof.
  intros H Hs. destruct (N.eq_dec x 44) as [->|Hx]; [|now apply run_not_bracket].
  destruct s as [[p b] c]. unfold run1. cbn. destruct (Nat.eqb_spec (p + b + c) 0); [|reflexivity].
  exfalso; apply Hs. unfold O3. repeat f_equal; lia.
Qed.
Lemma neutral_plain l : (forall x, In x l -> ~ In x brackets /\ x <> 44%N) -> neutral l.
Proof.
  induction l as [|x l IH]; intros H; [reflexivity|]. unfold neutral. cbn [run].
  destruct (H x (or_introl eq_refl)). rewrite run_not_bracket by assumption. apply IH. intros; apply H; now right.
Qed.
Lemma inner_plain l : (forall x, In x l -> ~ In x brackets) -> inner l.
Proof.
  induction l as [|x l IH]; intros H; [reflexivity|]. unfold inner. cbn [runc]. unfold runc1.
  destruct (N.eqb_spec x 44) as [->|Hx]; [apply IH; intros; apply H; now right|].
  rewrite run_not_bracket by (auto; apply H; now left). apply IH. intros; apply H; now right.
Qed.
Lemma inner_join ss : Forall neutral ss -> inner (join [44%N] ss).
Proof.
  intros H. induction H as [|s ss Hs H IH]; [reflexivity|]. destruct ss as [|s2 ss].
  - now apply neutral_inner.
  - change (join [44%N] (s :: s2 :: ss)) with (s ++ [44%N] ++ join [44%N] (s2 :: ss)).
    apply inner_app; [now apply neutral_inner|]. now apply inner_app.
Qed.
Lemma group_text_inner u : group_text u -> inner u.
Proof.
  intros H. induction H as [|c t Hc H IH|o c u t Hin Hu IHu Ht IHt]; [reflexivity| |].
  - change (c :: t) with ([c] ++ t). apply inner_app; [|exact IH]. apply inner_plain. now intros x [->|[]].
  - replace (o :: u ++ c :: t) with ((o :: u ++ [c]) ++ t) by (cbn; now rewrite <- app_assoc).
    apply inner_app; [|exact IHt]. now apply neutral_inner, group_neutral.
Qed.
Lemma arg_text_neutral u : arg_text u -> neutral u.
Proof.
  intros H. induction H as [|c t Hc Hn H IH|o c u t Hin Hu Ht IHt]; [reflexivity| |].
  - unfold neutral. cbn [run]. rewrite run_not_bracket by assumption. exact IH.
  - replace (o :: u ++ c :: t) with ((o :: u ++ [c]) ++ t) by (cbn; now rewrite <- app_assoc).
    apply neutral_app; [|exact IHt]. now apply group_neutral; [|apply group_text_inner].
Qed.

(** ** get_args on neutral pieces *)
Definition dsum (s : st) : Z := let '(p, b, c) := s in Z.of_nat (p + b + c).
Lemma run1_get_args s s' x : run1 s x = Some s' ->
  (if is_open x then (dsum s + 1)%Z else if is_close x then (dsum s - 1)%Z else dsum s) = dsum s' /\
  (Z.eqb (dsum s) 0 && N.eqb x 44)%bool = false.
Proof.
  destruct s as [[p b] c]. unfold run1, is_open, is_close, dsum.
  destruct (N.eqb_spec x 40) as [->|E1]; [injection 1 as <-; cbn -[Z.of_nat Z.add Z.sub Nat.add Z.eqb]; split; [lia|now rewrite andb_false_r]|].
  destruct (N.eqb_spec x 41) as [->|E2]; [destruct p; [discriminate|]; injection 1 as <-; cbn -[Z.of_nat Z.add Z.sub Nat.add Z.eqb]; split; [lia|now rewrite andb_false_r]|].
  destruct (N.eqb_spec x 91) as [->|E3]; [injection 1 as <-; cbn -[Z.of_nat Z.add Z.sub Nat.add Z.eqb]; split; [lia|now rewrite andb_false_r]|].
  destruct (N.eqb_spec x 93) as [->|E4]; [destruct b; [discriminate|]; injection 1 as <-; cbn -[Z.of_nat Z.add Z.sub Nat.add Z.eqb]; split; [lia|now rewrite andb_false_r]|].
  destruct (N.eqb_spec x 123) as [->|E5]; [injection 1 as <-; cbn -[Z.of_nat Z.add Z.sub Nat.add Z.eqb]; split; [lia|now rewrite andb_false_r]|].
  destruct (N.eqb_spec x 125) as [->|E6]; [destruct c; [discriminate|]; injection 1 as <-; cbn -[Z.of_nat Z.add Z.sub Nat.add Z.eqb]; split; [lia|now rewrite andb_false_r]|].
  cbn [orb]. destruct (N.eqb_spec x 44) as [->|E7].
  - destruct (Nat.eqb_spec (p + b + c) 0); [discriminate|]. injection 1 as <-. split; [reflexivity|].
    destruct (Z.eqb_spec (Z.of_nat (p + b + c)) 0); [lia|reflexivity].
  - injection 1 as <-. split; [reflexivity|]. now rewrite andb_false_r.
Qed.
Lemma get_args_go_run a : forall s s' buf rest, run s a = Some s' ->
  get_args_go (a ++ rest) (dsum s) buf = get_args_go rest (dsum s') (buf ++ a).
Proof.
  induction a as [|x a IH]; intros s s' buf rest; cbn [run app]; [injection 1 as <-; now rewrite app_nil_r|].
  destruct (run1 s x) as [s1|] eqn:E; [|discriminate]. intros H.
  destruct (run1_get_args _ _ _ E) as [H1 H2]. cbn [get_args_go]. rewrite H2, H1, (IH _ _ _ _ H), <- app_assoc. reflexivity.
Qed.
Lemma get_args_of_join ss : ss <> [] -> Forall neutral ss -> get_args (join [44%N] ss) = ss.
Proof.
  intros Hne H. unfold get_args. change 0%Z with (dsum O3).
  assert (G : forall ss, ss <> [] -> Forall neutral ss -> forall buf,
     get_args_go (join [44%N] ss) (dsum O3) buf = match ss with a :: t => (buf ++ a) :: t | [] => [] end).
  { clear. induction ss as [|a ss IH]; intros Hne H buf; [congruence|]. inversion H as [|? ? Ha Hss]; subst.
    destruct ss as [|b ss].
    - cbn [join]. rewrite <- (app_nil_r a) at 1. rewrite (get_args_go_run _ _ _ _ _ Ha). reflexivity.
    - change (join [44%N] (a :: b :: ss)) with (a ++ 44%N :: join [44%N] (b :: ss)).
      rewrite (get_args_go_run _ _ _ _ _ Ha). cbn [get_args_go]. change (dsum O3 =? 0)%Z with true.
      change (N.eqb 44 44) with true. cbn [andb]. f_equal. change (is_open 44%N) with false. change (is_close 44%N) with false.
      cbv iota. now rewrite IH by (try discriminate; assumption). }
  rewrite G by assumption. destruct ss; [congruence|reflexivity].
Qed.

Lemma last_def {A} (a : A) l d d' : last (a :: l) d = last (a :: l) d'.
Proof. revert a; induction l as [|x l IH]; intros a; [reflexivity|]. cbn [last] in *. apply IH. Qed.
Lemma last_cons {A} (a : A) l d : last (a :: l) d = last l a.
Proof. destruct l as [|x l]; [reflexivity|]. change (last (x :: l) d = last (x :: l) a). apply last_def. Qed.
Lemma last_app {A} (a b : list A) d : last (a ++ b) d = last b (last a d).
Proof. revert d; induction a as [|x a IH]; intros d; [reflexivity|]. cbn [app]. now rewrite !last_cons, IH. Qed.

(** ** The operator scan, without the text it runs in *)
Section Scan2.
Context {N : Num} {En : Env}.

Definition hid (i : nat) (p2 p1 c : char) : list op_entry :=
  if ((is_digit p1 && (is_alphabetic c || N.eqb c 92 || N.eqb c 40 || N.eqb c 91)
       || N.eqb p1 41 && N.eqb c 40) && negb (N.eqb p2 95))%bool
  then [(OHiddenMult, i, 0)] else [].
Definition top3 (s : st) : bool := let '(p, b, c) := s in Nat.eqb (p + b + c) 0.
Definition sym_entry (i : nat) (c : char) : list op_entry :=
  match get_op_symbol c with
  | Some op => if (Nat.eqb i 0 && op_eqb op OSub)%bool then [(ONeg, i, 1)] else [(op, i, 1)]
  | None => []
  end.
Definition nextp2 (i : nat) (p1 : char) : char := if Nat.ltb 1 i then p1 else 0%N.

(** [p2]: the character two positions back, 0 if it is not looked at; [more]: there is
    text after [cs]. *)
Fixpoint scan2 (more : bool) (cs : str) (i : nat) (p2 p1 : char) (s : st) : list op_entry :=
  match cs with
  | [] => []
  | c :: t =>
      (if top3 s then hid i p2 p1 c else []) ++
      (if (top3 s && (more || match t with [] => false | _ => true end))%bool then sym_entry i c else []) ++
      match run1 s c with
      | Some s' => scan2 more t (S i) (nextp2 i p1) c s'
      | None => []
      end
  end.

Definition z3 (s : st) : Z * Z * Z := let '(p, b, c) := s in (Z.of_nat p, Z.of_nat b, Z.of_nat c).
Definition at2 (full : str) (i : nat) : char :=
  if Nat.ltb 2 i then match nth_error full (i - 2) with Some u => u | None => 0%N end else 0%N.

Lemma hidden_mult_hid full i p1 c :
  (if hidden_mult full i p1 c then [(OHiddenMult, i, 0)] else []) = hid i (at2 full i) p1 c.
Proof.
  unfold hidden_mult, hid, at2. set (h := (_ || _)%bool). destruct h; cbn [andb]; [|reflexivity].
  destruct (Nat.ltb 2 i); cbn [andb negb]; [|reflexivity].
  destruct (nth_error full (i - 2)) as [u|]; [|reflexivity]. now destruct (N.eqb u 95).
Qed.

Lemma op_not_bracket c op : get_op_symbol c = Some op -> ~ In c brackets /\ c <> 44%N.
Proof.
  intros H. split.
  - intros Hin. cbn in Hin. repeat (destruct Hin as [<-|Hin]; [discriminate H|]). exact Hin.
  - intros ->. discriminate.
Qed.

Lemma scan_ops_scan2 full : forall cs pre i p1 s s',
  full = pre ++ cs -> i = List.length pre -> p1 = last pre 92%N -> run s cs = Some s' ->
  scan_ops full cs i p1 (Z.of_nat (fst (fst s))) (Z.of_nat (snd (fst s))) (Z.of_nat (snd s))
  = scan2 false cs i (at2 full i) p1 s.
Proof.
  induction cs as [|c cs IH]; intros pre i p1 s s' Hf Hi Hp Hr; [reflexivity|].
  cbn [run] in Hr. destruct (run1 s c) as [s1|] eqn:E1; [|discriminate].
  specialize (IH (pre ++ [c]) (S i) c s1 s').
  rewrite <- app_assoc in IH. specialize (IH Hf). rewrite app_length, <- Hi in IH. cbn [List.length] in IH.
  specialize (IH ltac:(lia)). rewrite last_last in IH. specialize (IH eq_refl Hr).
  assert (Hat : at2 full (S i) = nextp2 i p1).
  { unfold at2, nextp2. replace (Nat.ltb 2 (S i)) with (Nat.ltb 1 i) by reflexivity.
    destruct (Nat.ltb_spec 1 i) as [Hlt|]; [|reflexivity].
    assert (Hpre : pre <> []) by (intros ->; cbn in Hi; lia).
    pose proof (app_removelast_last 92%N Hpre) as Hrl. rewrite <- Hp in Hrl.
    rewrite Hf, Hrl, <- app_assoc.
    assert (List.length (removelast pre) = i - 1).
    { apply (f_equal (@List.length _)) in Hrl. rewrite app_length in Hrl. cbn in Hrl. lia. }
    replace (S i - 2) with (List.length (removelast pre)) by lia. rewrite nth_error_app2, Nat.sub_diag by lia. reflexivity. }
  rewrite Hat in IH.
  cbn [scan_ops scan2]. destruct s as [[p b] q]. cbn [fst snd top3].
  assert (Htop : (Z.eqb (Z.of_nat p) 0 && Z.eqb (Z.of_nat b) 0 && Z.eqb (Z.of_nat q) 0)%bool = Nat.eqb (p + b + q) 0).
  { destruct (Nat.eqb_spec (p + b + q) 0).
    - assert (p = 0 /\ b = 0 /\ q = 0) as (-> & -> & ->) by lia. reflexivity.
    - destruct (Z.eqb_spec (Z.of_nat p) 0), (Z.eqb_spec (Z.of_nat b) 0), (Z.eqb_spec (Z.of_nat q) 0); cbn; try reflexivity. lia. }
  rewrite Htop. set (top := Nat.eqb (p + b + q) 0).
  replace (if (top && hidden_mult full i p1 c)%bool then [(OHiddenMult, i, 0)] else [])
     with (if top then hid i (at2 full i) p1 c else [])
     by (rewrite <- hidden_mult_hid; now destruct top).
  apply (f_equal (app (if top then hid i (at2 full i) p1 c else []))). rewrite E1, <- IH. clear IH.
  unfold run1 in E1. unfold sym_entry.
  destruct (N.eqb_spec c 40) as [->|H1]; [injection E1 as <-; cbn [fst snd get_op_symbol N.eqb Pos.eqb]; rewrite Tauto.if_same; cbn [app]; f_equal; lia|].
  destruct (N.eqb_spec c 41) as [->|H2]; [destruct p; [discriminate|]; injection E1 as <-; cbn [fst snd get_op_symbol N.eqb Pos.eqb]; rewrite Tauto.if_same; cbn [app]; f_equal; lia|].
  destruct (N.eqb_spec c 91) as [->|H3]; [injection E1 as <-; cbn [fst snd get_op_symbol N.eqb Pos.eqb]; rewrite Tauto.if_same; cbn [app]; f_equal; lia|].
  destruct (N.eqb_spec c 93) as [->|H4]; [destruct b; [discriminate|]; injection E1 as <-; cbn [fst snd get_op_symbol N.eqb Pos.eqb]; rewrite Tauto.if_same; cbn [app]; f_equal; lia|].
  destruct (N.eqb_spec c 123) as [->|H5]; [injection E1 as <-; cbn [fst snd get_op_symbol N.eqb Pos.eqb]; rewrite Tauto.if_same; cbn [app]; f_equal; lia|].
  destruct (N.eqb_spec c 125) as [->|H6]; [destruct q; [discriminate|]; injection E1 as <-; cbn [fst snd get_op_symbol N.eqb Pos.eqb]; rewrite Tauto.if_same; cbn [app]; f_equal; lia|].
  assert (s1 = (p, b, q)) as ->.
  { destruct (N.eqb c 44); [destruct (Nat.eqb (p + b + q) 0); [discriminate|]|]; now injection E1. }
  cbn [fst snd orb]. destruct (get_op_symbol c) as [op|]; [|now rewrite Tauto.if_same].
  destruct cs as [|c' cs]; cbn [negb]; [rewrite andb_false_r; reflexivity|]. rewrite andb_true_r.
  destruct top; cbn [andb]; [|reflexivity]. now destruct (Nat.eqb i 0 && op_eqb op OSub)%bool.
Qed.

Fixpoint cp2 (a : str) (i : nat) (p2 p1 : char) : char :=
  match a with [] => p2 | x :: t => cp2 t (S i) (nextp2 i p1) x end.
Lemma cp2_app a b i p2 p1 : cp2 (a ++ b) i p2 p1 = cp2 b (i + List.length a) (cp2 a i p2 p1) (last a p1).
Proof.
  revert i p2 p1; induction a as [|x a IH]; intros i p2 p1; cbn [app cp2 List.length].
  - now rewrite Nat.add_0_r.
  - rewrite IH, last_cons. f_equal; lia.
Qed.

Lemma scan2_app a : forall more b i p2 p1 s s1, run s a = Some s1 ->
  scan2 more (a ++ b) i p2 p1 s =
  scan2 (more || match b with [] => false | _ => true end) a i p2 p1 s ++
  scan2 more b (i + List.length a) (cp2 a i p2 p1) (last a p1) s1.
Proof.
  induction a as [|x a IH]; intros more b i p2 p1 s s1 H.
  - cbn. injection H as <-. now rewrite Nat.add_0_r.
  - cbn [run] in H. destruct (run1 s x) as [s'|] eqn:E; [|discriminate].
    cbn [app scan2 List.length cp2]. rewrite E, (IH _ _ _ _ _ _ _ H), last_cons, <- !app_assoc.
    f_equal. f_equal; [|do 2 f_equal; lia].
    destruct a as [|y a]; cbn [app]; [|now rewrite !orb_true_r].
    destruct b; cbn; now rewrite ?orb_false_r, ?orb_true_r.
Qed.

Lemma top3_add s d : d <> O3 -> top3 (add3 s d) = false.
Proof.
  destruct s as [[p b] c], d as [[x y] z]. intros H. cbn. apply Nat.eqb_neq. intros H1. apply H. unfold O3. repeat f_equal; lia.
Qed.
Lemma scan2_deep l : forall more i p2 p1 s s' d, runc s l = Some s' -> d <> O3 -> scan2 more l i p2 p1 (add3 s d) = [].
Proof.
  induction l as [|x l IH]; intros more i p2 p1 s s' d H Hd; [reflexivity|].
  cbn [runc] in H. destruct (runc1 s x) as [s1|] eqn:E; [|discriminate].
  cbn [scan2]. rewrite top3_add by assumption. cbn [andb app]. rewrite (runc1_lift _ _ _ d E Hd). eauto.
Qed.
Lemma inner_scan l more i p2 p1 d : inner l -> d <> O3 -> scan2 more l i p2 p1 d = [].
Proof. intros H Hd. pose proof (scan2_deep l more i p2 p1 O3 O3 d H Hd) as G. destruct d as [[x y] z]. exact G. Qed.
(** A bracket group at depth 0. *)
Lemma group_scan o c u more i p2 p1 : pair_of o c -> inner u ->
  scan2 more (o :: u ++ [c]) i p2 p1 O3 = hid i p2 p1 o.
Proof.
  intros H Hu. destruct (pair_run o c H) as (d & Hd & H1 & H2). cbn [scan2].
  assert (Ho : sym_entry i o = []).
  { unfold pair_of in H. cbn in H. destruct H as [H|[H|[H|[]]]]; injection H as <- <-; reflexivity. }
  rewrite H1, Ho, Tauto.if_same. cbn [top3 O3 Nat.add Nat.eqb app].
  rewrite (scan2_app _ _ _ _ _ _ _ _ (inner_at u d Hu Hd)), inner_scan by assumption.
  cbn [app scan2]. rewrite H2.
  assert (Ht : top3 d = false) by (destruct d as [[x y] z]; cbn; apply Nat.eqb_neq; intros E; apply Hd; unfold O3; repeat f_equal; lia).
  rewrite Ht. cbn [andb app]. now rewrite app_nil_r.
Qed.

Lemma hid_op i p2 p1 c op : get_op_symbol c = Some op -> hid i p2 p1 c = [].
Proof.
  intros H. unfold hid. assert (is_alphabetic c = false /\ N.eqb c 92 = false /\ N.eqb c 40 = false /\ N.eqb c 91 = false) as (-> & -> & -> & ->).
  { unfold get_op_symbol in H.
    repeat (match type of H with (if ?b then _ else _) = _ => destruct b eqn:?E end; [apply N.eqb_eq in E; subst; repeat split; reflexivity|clear E]).
    discriminate. }
  now rewrite !andb_false_r.
Qed.
Lemma hid_none i p2 p1 c : is_digit p1 = false -> N.eqb p1 41 = false -> hid i p2 p1 c = [].
Proof. intros H1 H2. unfold hid. now rewrite H1, H2. Qed.

(** Priorities *)
Definition lvl (e : op_entry) : option nat := op_index (fst (fst e)) op_types 0.
Definition ge (k : nat) (e : op_entry) : Prop := exists j, lvl e = Some j /\ k <= j.
Lemma ge_mono k k' e : k' <= k -> ge k e -> ge k' e.
Proof. intros H (j & H1 & H2). exists j. split; [exact H1|lia]. Qed.
Lemma ge_10 e : ge 10 e -> False.
Proof.
  intros (j & H & Hj). unfold lvl in H. destruct e as [[op ?] ?]. cbn [fst] in H.
  destruct op; cbn in H; try discriminate; injection H as <-; lia.
Qed.
Lemma hid_ge i p2 p1 c : Forall (ge 7) (hid i p2 p1 c).
Proof. unfold hid. destruct (_ && _)%bool; [|constructor]. constructor; [|constructor]. exists 7. split; [reflexivity|lia]. Qed.
Lemma get_op_symbol_lvl c op : get_op_symbol c = Some op -> exists j, op_index op op_types 0 = Some j.
Proof.
  unfold get_op_symbol. intros H.
  repeat (match type of H with (if ?b then _ else _) = _ => destruct b end; [injection H as <-; eexists; reflexivity|]).
  discriminate.
Qed.
Lemma sym_entry_ge0 i c : Forall (ge 0) (sym_entry i c).
Proof.
  unfold sym_entry. destruct (get_op_symbol c) as [op|] eqn:E; [|constructor].
  destruct (_ && _)%bool; (constructor; [|constructor]).
  - exists 4. split; [reflexivity|lia].
  - apply get_op_symbol_lvl in E as (j & Hj). exists j. split; [exact Hj|lia].
Qed.
Lemma scan2_ge0 more l : forall i p2 p1 s, Forall (ge 0) (scan2 more l i p2 p1 s).
Proof.
  induction l as [|x l IH]; intros i p2 p1 s; cbn [scan2]; [constructor|].
  apply Forall_app; split; [|apply Forall_app; split].
  - destruct (top3 s); [|constructor]. eapply Forall_impl; [|apply hid_ge]. intros e. apply ge_mono. lia.
  - destruct (_ && _)%bool; [apply sym_entry_ge0|constructor].
  - destruct (run1 s x); [apply IH|constructor].
Qed.

(** ** Choosing the operator *)
Lemma find_none_ge k o L : (exists j, op_index o op_types 0 = Some j /\ j < k) -> Forall (ge k) L ->
  find (fun e => op_eqb (fst (fst e)) o) L = None.
Proof.
  intros (j & Hj & Hlt) H. induction H as [|e L He H IH]; [reflexivity|]. cbn [find].
  destruct (op_eqb (fst (fst e)) o) eqn:E; [|exact IH].
  destruct He as (j' & H1 & H2). unfold lvl in H1.
  assert (fst (fst e) = o) as <- by (destruct (fst (fst e)), o; try discriminate E; reflexivity). rewrite Hj in H1. injection H1; lia.
Qed.
Lemma find_app {A} (f : A -> bool) a b : find f (a ++ b) = match find f a with Some x => Some x | None => find f b end.
Proof. induction a as [|x a IH]; cbn; [reflexivity|]. now destruct (f x). Qed.

Lemma pick_first k A e B : lvl e = Some k -> Forall (ge (S k)) A -> Forall (ge k) B ->
  fold_right (fun o acc => match find (fun e => op_eqb (fst (fst e)) o) (A ++ e :: B) with Some e => Some e | None => acc end) None op_types
  = Some e.
Proof.
  intros He HA HB. set (L := A ++ e :: B).
  assert (HL : Forall (ge k) L).
  { apply Forall_app; split; [eapply Forall_impl; [|exact HA]; intros x; apply ge_mono; lia|]. constructor; [exists k; auto|exact HB]. }
  assert (Hlow : forall o j, op_index o op_types 0 = Some j -> j < k -> find (fun e => op_eqb (fst (fst e)) o) L = None).
  { intros o j H1 H2. eapply find_none_ge; eauto. }
  assert (Hk : forall o, op_index o op_types 0 = Some k -> find (fun e => op_eqb (fst (fst e)) o) L = Some e).
  { intros o Ho. unfold L. rewrite find_app. rewrite (find_none_ge (S k)); [|exists k; split; [exact Ho|lia]|exact HA].
    cbn [find]. destruct e as [[op i] w]. cbn [fst]. unfold lvl in He. cbn [fst] in He.
    assert (op = o) as ->.
    { clear -He Ho. destruct op; cbn in He; try discriminate; injection He as <-; destruct o; cbn in Ho; try discriminate Ho; reflexivity. }
    now destruct o. }
  assert (Hlt : k < 10). { destruct (le_lt_dec 10 k); [|assumption]. exfalso. eapply ge_10. exists k; eauto. }
  clearbody L. clear -Hlow Hk Hlt. unfold op_types. cbn [fold_right].
  destruct k as [|k]; [now rewrite (Hk OAdd eq_refl)|rewrite (Hlow OAdd 0 eq_refl) by lia].
  destruct k as [|k]; [now rewrite (Hk OSub eq_refl)|rewrite (Hlow OSub 1 eq_refl) by lia].
  destruct k as [|k]; [now rewrite (Hk OAddSub eq_refl)|rewrite (Hlow OAddSub 2 eq_refl) by lia].
  destruct k as [|k]; [now rewrite (Hk OMult eq_refl)|rewrite (Hlow OMult 3 eq_refl) by lia].
  destruct k as [|k]; [now rewrite (Hk ONeg eq_refl)|rewrite (Hlow ONeg 4 eq_refl) by lia].
  destruct k as [|k]; [now rewrite (Hk ODiv eq_refl)|rewrite (Hlow ODiv 5 eq_refl) by lia].
  destruct k as [|k]; [now rewrite (Hk OCross eq_refl)|rewrite (Hlow OCross 6 eq_refl) by lia].
  destruct k as [|k]; [now rewrite (Hk OHiddenMult eq_refl)|rewrite (Hlow OHiddenMult 7 eq_refl) by lia].
  destruct k as [|k]; [now rewrite (Hk OPow eq_refl)|rewrite (Hlow OPow 8 eq_refl) by lia].
  destruct k as [|k]; [now rewrite (Hk OGet eq_refl)|lia].
Qed.

Lemma highest_op_min L k e : Forall (ge k) L -> In e L -> lvl e = Some k -> highest_op L = Nat.min 7 k.
Proof.
  intros HL Hin He. unfold highest_op.
  assert (G : forall L h, k <= h -> Forall (ge k) L ->
    let r := fold_left (fun h e => match op_index (fst (fst e)) op_types 0 with Some j => if Nat.ltb j h then j else h | None => h end) L h in
    Nat.min h k <= r /\ r <= h /\ (In e L -> r <= k)).
  { clear -He. induction L as [|x L IH]; intros h Hh HL; cbn [fold_left].
    - cbn. split; [lia|]. split; [lia|easy].
    - inversion HL as [|? ? Hx HL']; subst. destruct Hx as (j & Hj1 & Hj2). unfold lvl in Hj1. rewrite Hj1.
      set (h' := if Nat.ltb j h then j else h).
      assert (Hh' : k <= h' /\ h' <= h /\ h' <= j) by (unfold h'; destruct (Nat.ltb_spec j h); lia).
      destruct (IH h' ltac:(lia) HL') as (G1 & G2 & G3). split; [lia|]. split; [lia|].
      intros [->|Hin]; [|auto]. unfold lvl in He. rewrite Hj1 in He. injection He as ->. lia. }
  destruct (le_lt_dec k 7) as [Hk|Hk].
  - destruct (G L 7 Hk HL) as (G1 & G2 & G3). specialize (G3 Hin). lia.
  - (* nothing lowers the initial 7 *)
    clear G. assert (G : forall L, Forall (ge k) L -> fold_left (fun h e => match op_index (fst (fst e)) op_types 0 with Some j => if Nat.ltb j h then j else h | None => h end) L 7 = 7).
    { clear -Hk. induction L as [|x L IH]; intros HL; [reflexivity|]. inversion HL as [|? ? (j & Hj1 & Hj2) HL']; subst.
      cbn [fold_left]. unfold lvl in Hj1. rewrite Hj1. destruct (Nat.ltb_spec j 7); [lia|]. auto. }
    rewrite G by assumption. lia.
Qed.

Lemma select_right k A e B : lvl e = Some k -> left_assoc k = false -> Forall (ge (S k)) A -> Forall (ge k) B ->
  select_op (A ++ e :: B) = Some e.
Proof.
  intros He Hk HA HB. unfold select_op. cbv zeta.
  rewrite (highest_op_min _ k e); [| |apply in_app_iff; right; now left|exact He].
  2:{ apply Forall_app; split; [eapply Forall_impl; [|exact HA]; intros x; apply ge_mono; lia|]. constructor; [exists k; auto|exact HB]. }
  replace (Nat.eqb (Nat.min 7 k) 1 || Nat.eqb (Nat.min 7 k) 3)%bool with false.
  - now apply pick_first with (k := k).
  - unfold left_assoc in Hk. symmetry. apply orb_false_iff in Hk as [H1 H2]. apply Nat.eqb_neq in H1, H2.
    apply orb_false_iff; split; apply Nat.eqb_neq; lia.
Qed.
Lemma select_left k A e B : lvl e = Some k -> left_assoc k = true -> Forall (ge k) A -> Forall (ge (S k)) B ->
  select_op (A ++ e :: B) = Some e.
Proof.
  intros He Hk HA HB. unfold select_op. cbv zeta.
  rewrite (highest_op_min _ k e); [| |apply in_app_iff; right; now left|exact He].
  2:{ apply Forall_app; split; [exact HA|]. constructor; [exists k; auto|]. eapply Forall_impl; [|exact HB]; intros x; apply ge_mono; lia. }
  assert (Hk' : k = 1 \/ k = 3).
  { unfold left_assoc in Hk. apply orb_true_iff in Hk as [H|H]; apply Nat.eqb_eq in H; auto. }
  replace (Nat.eqb (Nat.min 7 k) 1 || Nat.eqb (Nat.min 7 k) 3)%bool with true by (destruct Hk' as [->| ->]; reflexivity).
  rewrite rev_app_distr. cbn [rev]. rewrite <- app_assoc. cbn [app].
  apply pick_first with (k := k); [exact He| |]; apply Forall_rev; assumption.
Qed.
End Scan2.
