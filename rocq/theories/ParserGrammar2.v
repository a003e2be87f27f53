(** * ParserGrammar2: every expression of the grammar of [GrammarSpec] is parsed
    to its tree (phrases). *)
From Coq Require Import List NArith ZArith Bool Lia Arith String.
From Verif Require Import Base BaseFacts F64 Num Types Helpers Parser EvalTotal ParserBase GrammarSpec ParserGrammar.
Import ListNotations.

Section Phrases.
Context {N : Num} {En : Env}.

Lemma operators_symbol k c op : In (k, c, op) operators -> get_op_symbol c = Some op /\ op_index op op_types 0 = Some k.
Proof. intros H. cbn in H. repeat (destruct H as [H|H]; [injection H as <- <- <-; split; reflexivity|]). easy. Qed.
Lemma opchars_symbol c : ~ In c opchars -> get_op_symbol c = None.
Proof.
  intros H. unfold get_op_symbol.
  destruct (N.eqb_spec c 63) as [->|_]; [exfalso; apply H; vm_compute; tauto|].
  destruct (N.eqb_spec c 43) as [->|_]; [exfalso; apply H; vm_compute; tauto|].
  destruct (N.eqb_spec c 45) as [->|_]; [exfalso; apply H; vm_compute; tauto|].
  destruct (N.eqb_spec c 38) as [->|_]; [exfalso; apply H; vm_compute; tauto|].
  destruct (N.eqb_spec c 42) as [->|_]; [exfalso; apply H; vm_compute; tauto|].
  destruct (N.eqb_spec c 47) as [->|_]; [exfalso; apply H; vm_compute; tauto|].
  destruct (N.eqb_spec c 94) as [->|_]; [exfalso; apply H; vm_compute; tauto|].
  destruct (N.eqb_spec c 35) as [->|_]; [exfalso; apply H; vm_compute; tauto|]. reflexivity.
Qed.
Lemma digit_numeric c : is_digit c = true -> is_numeric c = true.
Proof.
  intros H. unfold is_numeric, is_ascii. unfold is_digit in *. destruct (N.ltb_spec c 128); [exact H|].
  apply andb_true_iff in H as [_ H]. apply N.leb_le in H. lia.
Qed.
Lemma plain_not_digit c : plain c -> is_digit c = false.
Proof. intros (_ & _ & _ & _ & H). destruct (is_digit c) eqn:E; [|reflexivity]. apply digit_numeric in E. congruence. Qed.
Lemma bracket_not c x : ~ In c brackets -> In x brackets -> N.eqb c x = false.
Proof. intros H Hx. apply N.eqb_neq. intros ->. contradiction. Qed.
Ltac nb := first [apply bracket_not; [assumption|vm_compute; tauto]].

(** The characters that a name or a call can be followed by never make a
    hidden multiplication with a name. *)
Definition okp (p2 p1 : char) : Prop := N.eqb p1 41 = false /\ (is_digit p1 = true -> p2 = 95%N).
Lemma okp_hid i p2 p1 c : okp p2 p1 -> hid i p2 p1 c = [].
Proof.
  intros [H1 H2]. unfold hid. rewrite H1. cbn [andb]. rewrite orb_false_r. destruct (is_digit p1); [|reflexivity].
  rewrite (H2 eq_refl). cbn. now rewrite andb_false_r.
Qed.

Lemma sym_entry_none i c : get_op_symbol c = None -> sym_entry i c = [].
Proof. intros H. unfold sym_entry. now rewrite H. Qed.

Lemma numeric_not c : is_numeric c = true -> ~ In c brackets /\ c <> 44%N /\ get_op_symbol c = None /\ c <> 95%N.
Proof.
  intros H.
  assert (G : forall x, is_numeric x = true -> is_numeric c = true -> True) by auto.
  assert (Hn : forall x, is_numeric x = false -> c <> x) by (intros x Hx ->; congruence).
  repeat split.
  - intros Hin. cbn in Hin. repeat (destruct Hin as [<-|Hin]; [discriminate H|]). exact Hin.
  - intros ->; discriminate.
  - unfold get_op_symbol. repeat (match goal with |- (if N.eqb c ?x then _ else _) = _ => destruct (N.eqb_spec c x) as [->|_]; [discriminate H|] end). reflexivity.
  - intros ->; discriminate.
Qed.

Lemma scan2_plain1 more c t i p2 p1 : ~ In c brackets -> c <> 44%N -> get_op_symbol c = None ->
  scan2 more (c :: t) i p2 p1 O3 = hid i p2 p1 c ++ scan2 more t (S i) (nextp2 i p1) c O3.
Proof.
  intros H1 H2 H3. cbn [scan2]. rewrite (run_not_bracket O3 c H1 H2), (sym_entry_none _ _ H3), Tauto.if_same. reflexivity.
Qed.

Lemma name_rest_scan t : name_rest t -> forall more i p2 p1, 1 <= i -> okp p2 p1 ->
  scan2 more t i p2 p1 O3 = [] /\ okp (cp2 t i p2 p1) (last t p1).
Proof.
  induction 1 as [|c t Hc Ht IH|d t Hd Ht IH|u t Hu Ht IH]; intros more i p2 p1 Hi Hp.
  - split; [reflexivity|exact Hp].
  - pose proof Hc as (H1 & H2 & H3 & H4 & H5).
    rewrite scan2_plain1; [|exact H1|exact H4|now apply opchars_symbol].
    rewrite okp_hid by assumption. cbn [app cp2]. rewrite last_cons. apply IH; [lia|].
    split; [nb|]. rewrite plain_not_digit by assumption. discriminate.
  - destruct (numeric_not d Hd) as (D1 & D2 & D3 & D4).
    rewrite scan2_plain1 by first [reflexivity|discriminate|vm_compute; intuition discriminate].
    rewrite okp_hid by assumption. cbn [app]. rewrite scan2_plain1 by assumption.
    rewrite hid_none by reflexivity. cbn [app cp2]. rewrite !last_cons. apply IH; [lia|].
    split; [nb|]. intros _. unfold nextp2. destruct (Nat.ltb_spec 1 (S i)); [reflexivity|lia].
  - assert (Hu' : inner u) by now apply inner_plain.
    assert (Hpair : pair_of (ch "{") (ch "}")) by (vm_compute; tauto).
    pose proof (group_neutral _ _ u Hpair Hu') as Hg.
    replace (ch "{" :: u ++ ch "}" :: t) with ((ch "{" :: u ++ [ch "}"]) ++ t) by (cbn; now rewrite <- app_assoc).
    rewrite (scan2_app _ _ _ _ _ _ _ _ Hg), group_scan, okp_hid by assumption.
    rewrite app_nil_l, cp2_app, last_app.
    change (ch "{" :: u ++ [ch "}"]) with ((ch "{" :: u) ++ [ch "}"]). rewrite last_last.
    apply IH; [lia|]. split; [reflexivity|discriminate].
Qed.
Lemma name_rest_neutral t : name_rest t -> neutral t.
Proof.
  induction 1 as [|c t Hc Ht IH|d t Hd Ht IH|u t Hu Ht IH]; [reflexivity| | |].
  - destruct Hc as (H1 & H2 & H3 & H4 & H5). unfold neutral. cbn [run]. now rewrite run_not_bracket.
  - destruct (numeric_not d Hd) as (D1 & D2 & D3 & D4). unfold neutral. cbn [run].
    rewrite run_not_bracket by first [discriminate|vm_compute; intuition discriminate]. now rewrite run_not_bracket.
  - replace (ch "{" :: u ++ ch "}" :: t) with ((ch "{" :: u ++ [ch "}"]) ++ t) by (cbn; now rewrite <- app_assoc).
    apply neutral_app; [|exact IH]. apply group_neutral; [vm_compute; tauto|]. now apply inner_plain.
Qed.
Lemma name_neutral s : name s -> neutral s.
Proof.
  intros (c & t & -> & _ & Hc & Ht). destruct Hc as (H1 & H2 & H3 & H4 & H5).
  unfold neutral. cbn [run]. rewrite run_not_bracket by assumption. now apply name_rest_neutral.
Qed.
Lemma name_scan s : name s -> forall more i p2 p1,
  scan2 more s i p2 p1 O3 = hid i p2 p1 (hd 0%N s) /\ okp (cp2 s i p2 p1) (last s p1).
Proof.
  intros (c & t & -> & _ & Hc & Ht) more i p2 p1. pose proof Hc as (H1 & H2 & H3 & H4 & H5).
  rewrite scan2_plain1; [|exact H1|exact H4|now apply opchars_symbol].
  destruct (name_rest_scan t Ht more (S i) (nextp2 i p1) c) as [G1 G2]; [lia| |].
  { split; [nb|]. rewrite plain_not_digit by assumption. discriminate. }
  rewrite G1, app_nil_r. cbn [hd cp2]. rewrite last_cons. auto.
Qed.


(** The reserved words are names. *)
Definition letter (c : char) : bool := (((65 <=? c) && (c <=? 90)) || ((97 <=? c) && (c <=? 122)))%N%bool.
Lemma letter_plain c : letter c = true -> is_alphabetic c = true /\ plain c.
Proof.
  intros H. assert (Hr : (65 <= c /\ c <= 90 \/ 97 <= c /\ c <= 122)%N).
  { unfold letter in H. apply orb_true_iff in H as [H|H]; apply andb_true_iff in H as [H1 H2]; apply N.leb_le in H1, H2; lia. }
  assert (Ha : is_ascii c = true) by (apply N.ltb_lt; lia).
  split; [unfold is_alphabetic; rewrite Ha; exact H|]. repeat split.
  - intros Hin. vm_compute in Hin. repeat (destruct Hin as [<-|Hin]; [lia|]). exact Hin.
  - intros Hin. vm_compute in Hin. repeat (destruct Hin as [<-|Hin]; [lia|]). exact Hin.
  - intros ->. change (ch "=") with 61%N in Hr. lia.
  - intros ->. change (ch ",") with 44%N in Hr. lia.
  - unfold is_numeric. rewrite Ha. unfold is_digit. apply andb_false_iff. rewrite !N.leb_gt. lia.
Qed.
Lemma letters_name s : s <> [] -> forallb letter s = true -> name s.
Proof.
  intros Hne H. destruct s as [|c t]; [congruence|]. cbn in H. apply andb_true_iff in H as [H1 H2].
  destruct (letter_plain c H1) as [G1 G2]. exists c, t. repeat split; try apply G2; auto. clear -H2.
  induction t as [|x t IH]; [constructor|]. cbn in H2. apply andb_true_iff in H2 as [H1 H2].
  constructor; [now apply letter_plain|auto].
Qed.
Lemma reserved_name f : In f reserved -> name (lit f).
Proof.
  intros H. apply letters_name.
  - cbn in H. repeat (destruct H as [<-|H]; [discriminate|]). easy.
  - cbn in H. repeat (destruct H as [<-|H]; [reflexivity|]). easy.
Qed.

Lemma call_neutral f u : name f -> inner u -> neutral (f ++ 40%N :: u ++ [41%N]).
Proof.
  intros Hf Hu. apply neutral_app; [now apply name_neutral|]. apply group_neutral; [vm_compute; tauto|exact Hu].
Qed.
Lemma call_scan f u : name f -> inner u -> forall more i p2 p1,
  scan2 more (f ++ 40%N :: u ++ [41%N]) i p2 p1 O3 = hid i p2 p1 (hd 0%N f).
Proof.
  intros Hf Hu more i p2 p1. rewrite (scan2_app _ _ _ _ _ _ _ _ (name_neutral f Hf)).
  destruct (name_scan f Hf (more || true) i p2 p1) as [H1 H2].
  rewrite group_scan by (assumption || (vm_compute; tauto)). rewrite H1, (okp_hid _ _ _ _ H2). apply app_nil_r.
Qed.

Lemma number_chars s x : number s x -> forall c, In c s -> (is_digit c = true \/ c = 46%N).
Proof. intros [H _] c Hc. rewrite Forall_forall in H. now apply H. Qed.
Lemma digit_or_dot c : is_digit c = true \/ c = 46%N -> ~ In c brackets /\ c <> 44%N /\ get_op_symbol c = None /\
  is_alphabetic c = false /\ c <> 92%N.
Proof.
  intros [H| ->].
  - assert (Hr : (48 <= c <= 57)%N) by (unfold is_digit in H; apply andb_true_iff in H as [H1 H2]; apply N.leb_le in H1, H2; lia).
    destruct (numeric_not c (digit_numeric c H)) as (H1 & H2 & H3 & _). repeat split; try assumption; [|lia].
    unfold is_alphabetic, is_ascii. destruct (N.ltb_spec c 128); [|lia].
    apply orb_false_iff; split; apply andb_false_iff; rewrite !N.leb_gt; lia.
  - repeat split; try discriminate. vm_compute. intuition discriminate.
Qed.
Lemma number_neutral s x : number s x -> neutral s.
Proof. intros H. apply neutral_plain. intros c Hc. destruct (digit_or_dot c (number_chars s x H c Hc)) as (H1 & H2 & _). auto. Qed.
Lemma hid_quiet i p2 p1 c : is_alphabetic c = false -> c <> 92%N -> ~ In c brackets -> hid i p2 p1 c = [].
Proof.
  intros H1 H2 H3. unfold hid. rewrite H1. apply N.eqb_neq in H2. rewrite H2.
  rewrite (bracket_not c 40%N) by (assumption || (vm_compute; tauto)).
  rewrite (bracket_not c 91%N) by (assumption || (vm_compute; tauto)). cbn. now rewrite !andb_false_r.
Qed.
Lemma number_scan s : (forall c, In c s -> (is_digit c = true \/ c = 46%N)) -> forall more i p2 p1, scan2 more s i p2 p1 O3 = [].
Proof.
  induction s as [|c s IH]; intros H more i p2 p1; [reflexivity|].
  destruct (digit_or_dot c (H c (or_introl eq_refl))) as (H1 & H2 & H3 & H4 & H5).
  rewrite scan2_plain1, hid_quiet by assumption. apply IH. intros; apply H; now right.
Qed.

(** ** Atoms and phrases *)
Section R.
Variable R : str -> AST N -> Prop.
Variable n : nat.
Hypothesis HR : forall s a, List.length s < n -> R s a -> neutral s.

Lemma R_all ss aa : Forall2 R ss aa -> (forall s, In s ss -> List.length s < n) -> Forall neutral ss.
Proof.
  intros H Hl. induction H as [|s a ss aa Hs H IH]; constructor.
  - eapply HR; [apply Hl; now left|exact Hs].
  - apply IH. intros; apply Hl; now right.
Qed.
Lemma entry_neutral e x : entry R e x -> List.length e < n -> neutral e.
Proof.
  intros H Hl. inversion H as [v Hv Hin|l r a b Hla Hrb Hi1 Hi2]; subst; [now apply arg_text_neutral|].
  rewrite app_length in Hl. cbn in Hl. apply neutral_app; [eapply HR; [|exact Hla]; lia|].
  unfold neutral. cbn [run]. change (run1 O3 (ch "=")) with (Some O3). eapply HR; [|exact Hrb]. lia.
Qed.

(** The three forms of an atom that is neither a number nor a name. *)
Inductive boxed : str -> Prop :=
| B_group o c u : pair_of o c -> inner u -> boxed (o :: u ++ [c])
| B_call f u : name f -> inner u -> boxed (f ++ 40%N :: u ++ [41%N]).

Lemma join_lengths ss m : List.length (join [44%N] ss) < m -> forall s, In s ss -> List.length s < m.
Proof. intros H s Hs. destruct (join_pieces [44%N] ss s Hs) as [_ H1]. lia. Qed.

Lemma atom_forms s a : atom R s a -> List.length s <= n ->
  (exists x, number s x /\ s <> []) \/ name s \/ boxed s.
Proof.
  intros H Hl. destruct H as [s x Hne Hx|s Hs|s a Ha|op f s a Hf Ha|s1 s2 a b Ha Hb|f ss aa Hf Has Hres Hne Haa
    |ss aa Hne Haa|ss aa Hne Has Haa Hv|ss vs m r c Has Haa Hr Hc Hsh Hm|f x p a b Ha Hx Hb|f x l u a b c Ha Hx Hb Hc|es xs Hne Hes].
  - left. eauto.
  - now right; left.
  - right; right. apply B_group with (o := ch "(") (c := ch ")"); [vm_compute; tauto|].
    apply neutral_inner. eapply HR; [|exact Ha]. cbn in Hl. rewrite app_length in Hl. lia.
  - right; right. apply B_call.
    + apply reserved_name. clear -Hf. cbn in Hf. cbn.
      repeat (destruct Hf as [Hf|Hf]; [injection Hf as <- <-; intuition auto 20|]). easy.
    + apply neutral_inner. eapply HR; [|exact Ha]. rewrite app_length in Hl. cbn in Hl. rewrite app_length in Hl. lia.
  - right; right. change (lit "root(") with (lit "root" ++ [40%N]). rewrite <- app_assoc. apply B_call; [apply reserved_name; cbn; tauto|].
    assert (Hlen : List.length (join [44%N] [s1; s2]) < n) by (rewrite !app_length in Hl; cbn in Hl |- *; rewrite ?app_length in *; cbn in *; lia).
    apply inner_join. repeat constructor; (eapply HR; [apply (join_lengths _ _ Hlen); cbn; tauto|eassumption]).
  - right; right. apply B_call; [exact Hf|]. apply inner_join. eapply R_all; [exact Haa|].
    apply join_lengths. rewrite app_length in Hl. cbn in Hl. rewrite app_length in Hl. cbn in Hl |- *. lia.
  - right; right. apply B_group with (o := ch "{") (c := ch "}"); [vm_compute; tauto|]. apply inner_join. eapply R_all; [exact Haa|].
    apply join_lengths. cbn in Hl. rewrite app_length in Hl. cbn in Hl |- *. lia.
  - right; right. apply B_group with (o := ch "[") (c := ch "]"); [vm_compute; tauto|]. apply inner_join. eapply R_all; [exact Haa|].
    apply join_lengths. cbn in Hl. rewrite app_length in Hl. cbn in Hl |- *. lia.
  - right; right. apply B_group with (o := ch "[") (c := ch "]"); [vm_compute; tauto|]. apply inner_join. eapply R_all; [exact Haa|].
    apply join_lengths. cbn in Hl. rewrite app_length in Hl. cbn in Hl |- *. lia.
  - right; right. change (lit "D(") with (lit "D" ++ [40%N]). rewrite <- app_assoc. apply B_call; [apply reserved_name; cbn; tauto|].
    assert (Hlen : List.length (join [44%N] [f; x; p]) < n) by (rewrite !app_length in Hl; cbn in Hl |- *; rewrite ?app_length in *; cbn in *; lia).
    apply inner_join. repeat constructor; try (eapply HR; [apply (join_lengths _ _ Hlen); cbn; tauto|eassumption]). now apply arg_text_neutral.
  - right; right. change (lit "I(") with (lit "I" ++ [40%N]). rewrite <- app_assoc. apply B_call; [apply reserved_name; cbn; tauto|].
    assert (Hlen : List.length (join [44%N] [f; x; l; u]) < n) by (rewrite !app_length in Hl; cbn in Hl |- *; rewrite ?app_length in *; cbn in *; lia).
    apply inner_join. repeat constructor; try (eapply HR; [apply (join_lengths _ _ Hlen); cbn; tauto|eassumption]). now apply arg_text_neutral.
  - right; right. change (lit "eq(") with (lit "eq" ++ [40%N]). rewrite <- app_assoc. apply B_call; [apply reserved_name; cbn; tauto|].
    apply inner_join.
    assert (Hlen : forall s, In s es -> List.length s < n) by (apply join_lengths; rewrite !app_length in Hl; cbn in Hl |- *; lia).
    clear -Hes Hlen HR. induction Hes as [|e x es xs He Hes IH]; constructor.
    + eapply entry_neutral; [exact He|]. apply Hlen; now left.
    + apply IH. intros; apply Hlen; now right.
Qed.

Lemma atom_scan s a : atom R s a -> List.length s <= n ->
  neutral s /\ s <> [] /\ forall more i p2 p1, scan2 more s i p2 p1 O3 = hid i p2 p1 (hd 0%N s).
Proof.
  intros H Hl. destruct (atom_forms s a H Hl) as [(x & Hx & Hne)|[Hs|Hs]].
  - split; [eapply number_neutral, Hx|]. split; [exact Hne|]. intros more i p2 p1.
    rewrite number_scan by (eapply number_chars, Hx). destruct s as [|c s]; [congruence|]. cbn [hd].
    destruct (digit_or_dot c (number_chars _ x Hx c (or_introl eq_refl))) as (H1 & H2 & H3 & H4 & H5). now rewrite hid_quiet.
  - split; [now apply name_neutral|]. split; [destruct Hs as (c & t & -> & _); discriminate|]. intros; now apply name_scan.
  - destruct Hs as [o c u Ho Hu|f u Hf Hu].
    + split; [now apply group_neutral|]. split; [discriminate|]. intros; now apply group_scan.
    + split; [now apply call_neutral|]. destruct Hf as (c & t & -> & Hc). split; [discriminate|].
      intros; rewrite call_scan; [reflexivity| |exact Hu]. exists c, t; auto.
Qed.

Lemma hd_app {A} (d : A) l r : l <> [] -> hd d (l ++ r) = hd d l.
Proof. now destruct l. Qed.
Lemma scan2_op more c r i p2 p1 op : get_op_symbol c = Some op -> r <> [] ->
  scan2 more (c :: r) i p2 p1 O3 = sym_entry i c ++ scan2 more r (S i) (nextp2 i p1) c O3.
Proof.
  intros Hc Hr. destruct (op_not_bracket c op Hc) as [H1 H2]. cbn [scan2].
  rewrite (hid_op _ _ _ _ _ Hc), (run_not_bracket O3 c H1 H2). cbn [top3 O3 Nat.add Nat.eqb app andb].
  destruct r; [congruence|]. now rewrite orb_true_r.
Qed.
Lemma op_not_digit c op : get_op_symbol c = Some op -> is_digit c = false /\ N.eqb c 41 = false.
Proof.
  intros H. split.
  - destruct (is_digit c) eqn:E; [|reflexivity]. destruct (numeric_not c (digit_numeric c E)) as (_ & _ & G & _). congruence.
  - destruct (N.eqb_spec c 41) as [->|]; [discriminate|reflexivity].
Qed.

Lemma phrase_scan k lead s a : phrase R k lead s a -> List.length s <= n ->
  neutral s /\ s <> [] /\ forall more i p2 p1, (1 <= k -> lead = true -> i = 0) ->
    exists L, scan2 more s i p2 p1 O3 = hid i p2 p1 (hd 0%N s) ++ L /\ Forall (ge k) L.
Proof.
  assert (K0 : forall s lead, neutral s -> s <> [] -> forall more i p2 p1, (1 <= 0 -> lead = true -> i = 0) ->
    exists L, scan2 more s i p2 p1 O3 = hid i p2 p1 (hd 0%N s) ++ L /\ Forall (ge 0) L).
  { intros u le Hn Hne more i p2 p1 _. destruct u as [|c t]; [congruence|]. cbn [hd].
    pose proof (scan2_ge0 more (c :: t) i p2 p1 O3) as G. cbn [scan2 top3 O3 Nat.add Nat.eqb] in G |- *.
    eexists. split; [reflexivity|]. apply Forall_app in G as [_ G]. exact G. }
  induction 1 as [lead s a Ha|k lead s a H IH|k s a H IH|k lead c op l r a b Hop Has Hl IHl Hr IHr
     |k lead c op l r a b Hop Has Hl IHl Hr IHr|r b Hr IHr|k c op r b Hop Hns Hr IHr|lead l r a b Hj Hl IHl Hr IHr]; intros Hlen.
  - destruct (atom_scan s a Ha Hlen) as (H1 & H2 & H3). split; [exact H1|]. split; [exact H2|]. intros. exists []. rewrite app_nil_r. auto.
  - destruct (IH Hlen) as (H1 & H2 & H3). split; [exact H1|]. split; [exact H2|].
    destruct k as [|k]; [now apply K0|]. intros more i p2 p1 Hi.
    destruct (H3 more i p2 p1) as (L & HL1 & HL2); [intros; apply Hi; [lia|assumption]|].
    exists L. split; [exact HL1|]. eapply Forall_impl; [|exact HL2]. intros e; apply ge_mono; lia.
  - destruct (IH Hlen) as (H1 & H2 & H3). split; [exact H1|]. split; [exact H2|]. intros more i p2 p1 _. apply H3. discriminate.
  - (* left-associative operator *)
    rewrite app_length in Hlen. cbn in Hlen. destruct (IHl ltac:(lia)) as (L1 & L2 & L3). destruct (IHr ltac:(lia)) as (R1 & R2 & R3).
    destruct (operators_symbol _ _ _ Hop) as [Hc Hk]. destruct (op_not_bracket c op Hc) as [B1 B2].
    assert (Hn : neutral (l ++ c :: r)).
    { apply neutral_app; [exact L1|]. unfold neutral. cbn [run]. now rewrite run_not_bracket. }
    assert (Hne : l ++ c :: r <> []) by (destruct l; discriminate).
    split; [exact Hn|]. split; [exact Hne|].
    destruct k as [|k]; [now apply K0|]. intros more i p2 p1 Hi. rewrite hd_app by assumption.
    rewrite (scan2_app _ _ _ _ _ _ _ _ L1), (scan2_op _ _ _ _ _ _ _ Hc R2).
    destruct (L3 (more || true)%bool i p2 p1) as (A & A1 & A2); [exact Hi|].
    destruct (R3 more (S (i + List.length l)) (nextp2 (i + List.length l) (last l p1)) c) as (B & G1 & G2); [discriminate|].
    destruct (op_not_digit c op Hc) as [D1 D2]. rewrite hid_none in G1 by assumption.
    rewrite A1, G1, <- app_assoc. eexists. split; [reflexivity|].
    apply Forall_app; split; [exact A2|]. apply Forall_app; split.
    + unfold sym_entry. rewrite Hc. assert (Hi0 : Nat.eqb (i + List.length l) 0 = false) by (apply Nat.eqb_neq; destruct l; [congruence|cbn; lia]).
      rewrite Hi0. cbn [andb]. constructor; [|constructor]. exists (S k). split; [exact Hk|lia].
    + eapply Forall_impl; [|exact G2]. intros e; apply ge_mono; lia.
  - (* right-associative operator *)
    rewrite app_length in Hlen. cbn in Hlen. destruct (IHl ltac:(lia)) as (L1 & L2 & L3). destruct (IHr ltac:(lia)) as (R1 & R2 & R3).
    destruct (operators_symbol _ _ _ Hop) as [Hc Hk]. destruct (op_not_bracket c op Hc) as [B1 B2].
    assert (Hn : neutral (l ++ c :: r)).
    { apply neutral_app; [exact L1|]. unfold neutral. cbn [run]. now rewrite run_not_bracket. }
    assert (Hne : l ++ c :: r <> []) by (destruct l; discriminate).
    split; [exact Hn|]. split; [exact Hne|].
    destruct k as [|k]; [now apply K0|]. intros more i p2 p1 Hi. rewrite hd_app by assumption.
    rewrite (scan2_app _ _ _ _ _ _ _ _ L1), (scan2_op _ _ _ _ _ _ _ Hc R2).
    destruct (L3 (more || true)%bool i p2 p1) as (A & A1 & A2); [intros _; apply Hi; lia|].
    destruct (R3 more (S (i + List.length l)) (nextp2 (i + List.length l) (last l p1)) c) as (B & G1 & G2); [discriminate|].
    destruct (op_not_digit c op Hc) as [D1 D2]. rewrite hid_none in G1 by assumption.
    rewrite A1, G1, <- app_assoc. eexists. split; [reflexivity|].
    apply Forall_app; split; [eapply Forall_impl; [|exact A2]; intros e; apply ge_mono; lia|]. apply Forall_app; split; [|exact G2].
    unfold sym_entry. rewrite Hc. assert (Hi0 : Nat.eqb (i + List.length l) 0 = false) by (apply Nat.eqb_neq; destruct l; [congruence|cbn; lia]).
    rewrite Hi0. cbn [andb]. constructor; [|constructor]. exists (S k). split; [exact Hk|lia].
  - (* leading minus *)
    cbn in Hlen. destruct (IHr ltac:(lia)) as (R1 & R2 & R3). split; [exact R1|]. split; [discriminate|].
    intros more i p2 p1 Hi. rewrite (Hi ltac:(lia) eq_refl).
    rewrite (scan2_op _ (ch "-") _ _ _ _ OSub eq_refl R2). cbn [hd].
    rewrite (hid_op _ _ _ (ch "-") OSub eq_refl). cbn [app].
    destruct (R3 more 1 (nextp2 0 p1) (ch "-")) as (B & G1 & G2); [discriminate|].
    rewrite hid_none in G1 by reflexivity. rewrite G1. eexists. split; [reflexivity|].
    constructor; [exists 4; split; [reflexivity|lia]|]. cbn [app]. eapply Forall_impl; [|exact G2]. intros e; apply ge_mono; lia.
  - (* leading operator *)
    cbn in Hlen. destruct (IHr ltac:(lia)) as (R1 & R2 & R3).
    destruct (operators_symbol _ _ _ Hop) as [Hc Hk]. destruct (op_not_bracket c op Hc) as [B1 B2].
    assert (Hn : neutral (c :: r)) by (unfold neutral; cbn [run]; now rewrite run_not_bracket).
    split; [exact Hn|]. split; [discriminate|]. destruct k as [|k]; [apply K0; [exact Hn|discriminate]|].
    intros more i p2 p1 Hi. rewrite (Hi ltac:(lia) eq_refl). rewrite (scan2_op _ _ _ _ _ _ _ Hc R2). cbn [hd].
    rewrite (hid_op _ _ _ _ _ Hc). cbn [app].
    destruct (R3 more 1 (nextp2 0 p1) c) as (B & G1 & G2); [discriminate|].
    destruct (op_not_digit c op Hc) as [D1 D2]. rewrite hid_none in G1 by assumption. rewrite G1.
    eexists. split; [reflexivity|]. apply Forall_app; split.
    + unfold sym_entry. rewrite Hc. replace (op_eqb op OSub) with false by (destruct op; try reflexivity; congruence).
      rewrite andb_false_r. constructor; [|constructor]. exists (S k). split; [exact Hk|lia].
    + cbn [app]. eapply Forall_impl; [|exact G2]. intros e; apply ge_mono. destruct (left_assoc (S k)); lia.
  - (* juxtaposition *)
    rewrite app_length in Hlen. destruct (IHl ltac:(lia)) as (L1 & L2 & L3). destruct (IHr ltac:(lia)) as (R1 & R2 & R3).
    split; [now apply neutral_app|]. split; [destruct l; [congruence|discriminate]|].
    intros more i p2 p1 Hi. rewrite hd_app by assumption. rewrite (scan2_app _ _ _ _ _ _ _ _ L1).
    destruct (L3 (more || match r with [] => false | _ => true end)%bool i p2 p1) as (A & A1 & A2); [intros _; apply Hi; lia|].
    destruct (R3 more (i + List.length l) (cp2 l i p2 p1) (last l p1)) as (B & G1 & G2); [discriminate|].
    rewrite A1, G1, <- app_assoc. eexists. split; [reflexivity|].
    apply Forall_app; split; [eapply Forall_impl; [|exact A2]; intros e; apply ge_mono; lia|].
    apply Forall_app; split; [apply hid_ge|exact G2].
Qed.
End R.

(** Every expression is balanced. *)
Lemma expression_neutral n : forall s a, List.length s < n -> expression s a -> neutral s.
Proof.
  induction n as [|n IH]; intros s a Hs H; [lia|]. destruct H as [H].
  eapply phrase_scan with (n := n) in H; [apply H|exact IH|lia].
Qed.
End Phrases.
