(** * ParserBase: the parser terminates, does not panic on ASCII text, and what
    holds of every AST it returns. *)
From Coq Require Import List NArith ZArith Bool Lia Arith String.
From Verif Require Import Base BaseFacts F64 Num Types Helpers Parser EvalTotal SpellSpec.
Import ListNotations.

(** ** Pieces of strings *)

Lemma foreign_dec s : {foreign s} + {~ foreign s}.
Proof.
  destruct (existsb (fun c => negb (is_ascii c)) s) eqn:E.
  - left. apply existsb_exists in E as (c & H1 & H2). exists c; split; [exact H1|]. now apply negb_true_iff in H2.
  - right. intros (c & H1 & H2). assert (existsb (fun c => negb (is_ascii c)) s = true); [|congruence].
    apply existsb_exists. exists c; split; [exact H1|now rewrite H2].
Qed.
Lemma foreign_incl s t : incl s t -> foreign s -> foreign t.
Proof. intros H (c & H1 & H2). exists c; auto. Qed.

Lemma byte_len_ascii s : ~ foreign s -> byte_len s = List.length s.
Proof.
  induction s as [|c s IH]; intros H; [reflexivity|].
  change (byte_len (c :: s)) with (utf8_len c + byte_len s). cbn [List.length].
  rewrite IH by (intros Hb; apply H; eapply foreign_incl; [|exact Hb]; intros x; now right).
  unfold utf8_len. destruct (N.ltb c 128) eqn:E; [reflexivity|].
  exfalso; apply H. exists c; split; [now left|exact E].
Qed.

Lemma piece_refl (s : str) : piece s s.
Proof. exists [], []. now rewrite app_nil_r. Qed.
Lemma piece_trans (a b c : str) : piece a b -> piece b c -> piece a c.
Proof. intros (p & q & ->) (p' & q' & ->). exists (p' ++ p), (q ++ q'). now rewrite <- !app_assoc. Qed.
Lemma piece_mid (p t q : str) : piece t (p ++ t ++ q).
Proof. now exists p, q. Qed.
Lemma piece_incl (a b : str) : piece a b -> incl a b.
Proof. intros (p & q & ->) x Hx. apply in_app_iff. right. apply in_app_iff. now left. Qed.
Lemma piece_firstn n (s : str) : piece (firstn n s) s.
Proof. exists [], (skipn n s). cbn [app]. now rewrite firstn_skipn. Qed.
Lemma piece_skipn n (s : str) : piece (skipn n s) s.
Proof. exists (firstn n s), []. now rewrite app_nil_r, firstn_skipn. Qed.
Lemma piece_sub n m (s : str) : piece (firstn n (skipn m s)) s.
Proof. eapply piece_trans; [apply piece_firstn|apply piece_skipn]. Qed.
Lemma byte_len_ge s : List.length s <= byte_len s.
Proof.
  induction s as [|c s IH]; [cbn; lia|].
  change (byte_len (c :: s)) with (utf8_len c + byte_len s). cbn [List.length]. unfold utf8_len.
  destruct (N.ltb c 128); [lia|]. destruct (N.ltb c 2048); [lia|]. destruct (N.ltb c 65536); lia.
Qed.

Lemma firstn_incl {A} n (l : list A) : incl (firstn n l) l.
Proof. revert n; induction l as [|x l IH]; intros [|n] y; cbn; try easy. intros [H|H]; [now left|right; eapply IH, H]. Qed.
Lemma skipn_incl {A} n (l : list A) : incl (skipn n l) l.
Proof. revert n; induction l as [|x l IH]; intros [|n] y; cbn; auto. right; eapply IH, H. Qed.
Lemma slice_incl {E A} (l : list A) a b r : @slice E A l a b = Ok r -> incl r l.
Proof.
  intros H; apply slice_inv in H as (_ & _ & ->). intros x Hx.
  eapply skipn_incl, firstn_incl, Hx.
Qed.

Lemma slice_piece {E} (l : str) a b r : @slice E _ l a b = Ok r -> piece r l.
Proof. intros H; apply slice_inv in H as (_ & _ & ->). apply piece_sub. Qed.

Lemma before_incl c s : incl (before c s) s.
Proof. induction s as [|x s IH]; intros y; cbn; [easy|]. destruct (N.eqb x c); cbn; [easy|]. intros [H|H]; auto. Qed.
Lemma after_incl c s t : after c s = Some t -> incl t s /\ List.length t < List.length s.
Proof.
  induction s as [|x s IH]; cbn; [discriminate|]. destruct (N.eqb x c).
  - injection 1 as <-. split; [intros y; now right|lia].
  - intros H; apply IH in H as [H1 H2]. split; [intros y Hy; right; auto|lia].
Qed.
Lemma before_piece c s : piece (before c s) s.
Proof.
  exists []. induction s as [|x s IH]; cbn; [now exists []|]. destruct (N.eqb x c); [now exists (x :: s)|].
  destruct IH as (q & Hq). exists q. cbn in Hq |- *. now rewrite <- Hq.
Qed.
Lemma after_piece c s t : after c s = Some t -> piece t s.
Proof.
  induction s as [|x s IH]; cbn; [discriminate|]. destruct (N.eqb x c).
  - injection 1 as <-. exists [x], []. cbn. now rewrite app_nil_r.
  - intros H; apply IH in H as (p & q & ->). now exists (x :: p), q.
Qed.
Lemma before_length c s : List.length (before c s) <= List.length s.
Proof. induction s as [|x s IH]; cbn; [lia|]. destruct (N.eqb x c); cbn; lia. Qed.
Lemma before_lt c s : contains s c = true -> List.length (before c s) < List.length s.
Proof.
  unfold contains. induction s as [|x s IH]; cbn; [discriminate|]. rewrite (N.eqb_sym x c).
  destruct (N.eqb c x); cbn; [lia|]. intros H; apply IH in H; lia.
Qed.
Lemma contains_after c s : contains s c = true -> exists t, after c s = Some t.
Proof.
  unfold contains. induction s as [|x s IH]; cbn; [discriminate|]. rewrite (N.eqb_sym x c).
  destruct (N.eqb c x); cbn; eauto.
Qed.
Lemma contains_split c s : contains s c = true -> exists t, s = before c s ++ c :: t.
Proof.
  unfold contains. induction s as [|x s IH]; cbn; [discriminate|]. rewrite (N.eqb_sym x c).
  destruct (N.eqb_spec c x) as [->|Hn]; cbn; [eauto|]. intros H; apply IH in H as (t & Ht).
  exists t. now rewrite <- Ht.
Qed.

Lemma get_args_go_spec cs : forall d buf, exists h t,
  get_args_go cs d buf = (buf ++ h) :: t /\
  join [44%N] (h :: t) = cs.
Proof.
  induction cs as [|j cs IH]; intros d buf; cbn [get_args_go].
  - exists [], []. rewrite app_nil_r. auto.
  - destruct (Z.eqb d 0 && N.eqb j 44)%bool eqn:E.
    + apply andb_true_iff in E as [_ E]. apply N.eqb_eq in E as ->.
      destruct (IH (if is_open 44%N then (d + 1)%Z else if is_close 44%N then (d - 1)%Z else d) []) as (h & t & H1 & H2).
      exists [], (h :: t). rewrite H1, app_nil_r. split; [reflexivity|].
      change (join [44%N] ([] :: h :: t)) with (44%N :: join [44%N] (h :: t)). now rewrite H2.
    + destruct (IH (if is_open j then (d + 1)%Z else if is_close j then (d - 1)%Z else d) (buf ++ [j])) as (h & t & H1 & H2).
      exists (j :: h), t. rewrite H1, <- app_assoc. split; [reflexivity|].
      rewrite <- H2. destruct t; reflexivity.
Qed.

Lemma get_args_join cs : join [44%N] (get_args cs) = cs.
Proof. unfold get_args. destruct (get_args_go_spec cs 0 []) as (h & t & -> & H). exact H. Qed.
Lemma get_args_nonempty cs : get_args cs <> [].
Proof. unfold get_args. destruct (get_args_go_spec cs 0 []) as (h & t & -> & _). discriminate. Qed.

Lemma join_pieces sep (l : list str) a : In a l -> incl a (join sep l) /\ List.length a <= List.length (join sep l).
Proof.
  induction l as [|x l IH]; [easy|]. intros [->|H].
  - destruct l; cbn; [split; [apply incl_refl|lia]|]. split; [intros y Hy; apply in_app_iff; auto|].
    rewrite app_length; lia.
  - destruct l as [|y l]; [easy|]. apply IH in H as [H1 H2]. cbn [join]. split.
    + intros z Hz. apply in_app_iff; right. apply in_app_iff; right. apply H1, Hz.
    + rewrite !app_length. cbn [join] in H2. lia.
Qed.
Lemma get_args_pieces cs a : In a (get_args cs) -> incl a cs /\ List.length a <= List.length cs.
Proof. intros H. rewrite <- (get_args_join cs). now apply join_pieces. Qed.
Lemma piece_join (ss : list str) t : In t ss -> piece t (join [44%N] ss).
Proof.
  induction ss as [|x [|y ss] IH]; [easy| |].
  - intros [->|[]]. apply piece_refl.
  - change (join [44%N] (x :: y :: ss)) with (x ++ [44%N] ++ join [44%N] (y :: ss)). intros [->|H].
    + now exists [], ([44%N] ++ join [44%N] (y :: ss)).
    + eapply piece_trans; [apply IH, H|]. rewrite app_assoc. exists (x ++ [44%N]), []. now rewrite app_nil_r.
Qed.
Lemma get_args_piece cs a : In a (get_args cs) -> piece a cs.
Proof. intros H. rewrite <- (get_args_join cs). now apply piece_join. Qed.

(** ** Parentheses *)
Definition dp (c : char) : Z := (if N.eqb c 40 then 1 else if N.eqb c 41 then -1 else 0)%Z.
Fixpoint psum (s : str) : Z := match s with [] => 0 | c :: t => dp c + psum t end%Z.
Lemma psum_app s t : psum (s ++ t) = (psum s + psum t)%Z.
Proof. induction s as [|c s IH]; cbn; [lia|]. rewrite IH; lia. Qed.

Lemma paren_scan_fst s : forall d chk, fst (paren_scan s d chk) = (d + psum s)%Z.
Proof.
  induction s as [|c s IH]; intros d chk; cbn [paren_scan psum]; [cbn; lia|].
  unfold dp. destruct (N.eqb_spec c 40) as [->|H1].
  - change (N.eqb 40 41) with false. cbv iota. rewrite IH. lia.
  - destruct (N.eqb c 41); rewrite IH; lia.
Qed.

(** ** The operators found in an expression *)
Section Scan.
Context {N : Num} {En : Env}.

Lemma scan_ops_pos full cs : forall i last po bo co op k w,
  In (op, k, w) (scan_ops full cs i last po bo co) ->
  i <= k < i + List.length cs /\ (w = 1 \/ (w = 0 /\ (i < k \/ is_digit last = true \/ N.eqb last 41 = true))).
Proof.
  induction cs as [|c cs IH]; intros i last po bo co op k w H; cbn [scan_ops] in H; [easy|].
  assert (Hrest : forall po bo co, In (op, k, w) (scan_ops full cs (S i) c po bo co) ->
    i <= k < i + List.length (c :: cs) /\ (w = 1 \/ (w = 0 /\ (i < k \/ is_digit last = true \/ N.eqb last 41 = true)))).
  { intros p b q Hin. apply IH in Hin as [H1 H2]. cbn. split; [lia|]. destruct H2 as [->|[-> _]]; [now left|right].
    split; [reflexivity|left; lia]. }
  apply in_app_iff in H as [H|H].
  - destruct (_ && hidden_mult full i last c)%bool eqn:E; [|easy].
    apply andb_true_iff in E as [_ E]. unfold hidden_mult in E.
    destruct ((is_digit last && (is_alphabetic c || N.eqb c 92 || N.eqb c 40 || N.eqb c 91)
            || N.eqb last 41 && N.eqb c 40)%bool) eqn:E2; [|discriminate].
    destruct H as [H|[]]. injection H as <- <- <-. cbn. split; [lia|]. right. split; [reflexivity|right].
    apply orb_true_iff in E2 as [E2|E2]; apply andb_true_iff in E2 as [E2 _]; auto.
  - destruct (N.eqb c 40); [eauto|]. destruct (N.eqb c 41); [eauto|]. destruct (N.eqb c 91); [eauto|].
    destruct (N.eqb c 93); [eauto|]. destruct (N.eqb c 123); [eauto|]. destruct (N.eqb c 125); [eauto|].
    destruct (get_op_symbol c); [|eauto]. destruct (_ && negb _)%bool; [|eauto].
    destruct H as [H|H]; [|eauto]. destruct (Nat.eqb i 0 && op_eqb s OSub)%bool; injection H as <- <- <-; cbn; split; auto; lia.
Qed.

Lemma select_op_in ops e : select_op ops = Some e -> In e ops.
Proof.
  unfold select_op. cbv zeta. set (ops' := if (Nat.eqb (highest_op ops) 1 || Nat.eqb (highest_op ops) 3)%bool then rev ops else ops).
  intros H. assert (Hin : In e ops').
  { revert H. generalize op_types as l. induction l as [|o l IH]; cbn [fold_right]; [discriminate|].
    destruct (find (fun e0 => op_eqb (fst (fst e0)) o) ops') as [e'|] eqn:E; [|exact IH].
    intros [= <-]. now apply find_some in E. }
  unfold ops' in Hin. destruct (_ || _)%bool; [now apply in_rev|exact Hin].
Qed.

(** ** Texts whose non-ASCII characters are misread

    A piece without operators that is a call with a non-ASCII name or a
    bracket with a non-ASCII character. *)
Definition bad_atom (t : str) : Prop :=
  (exists f u, t = f ++ 40%N :: u ++ [41%N] /\ ~ In 40%N f /\ foreign f) \/ (exists u, t = 91%N :: u /\ foreign u).
Definition bad (s : str) : Prop :=
  exists t, piece t s /\ psum t = 0%Z /\ select_op (scan_ops t t 0 92%N 0 0 0) = None /\ bad_atom t.
Lemma bad_piece s t : piece s t -> bad s -> bad t.
Proof. intros H (u & H1 & H2). exists u. split; [eapply piece_trans; eauto|exact H2]. Qed.
Lemma bad_foreign s : bad s -> foreign s.
Proof.
  intros (t & H1 & _ & _ & H2). apply piece_incl in H1. apply (foreign_incl t); [exact H1|].
  destruct H2 as [(f & u & -> & _ & H)|(u & -> & H)].
  - eapply foreign_incl; [|exact H]. intros x Hx. apply in_app_iff. now left.
  - eapply foreign_incl; [|exact H]. intros x Hx. now right.
Qed.
Lemma before_no c s : ~ In c (before c s).
Proof.
  induction s as [|x s IH]; cbn; [easy|]. destruct (N.eqb_spec x c); [easy|]. intros [->|H]; [congruence|auto].
Qed.

(** ** One generic statement about [parse_inner]

    [P] is any property of ASTs that the constructions of the parser
    preserve. *)
Variable P : AST N -> Prop.
Definition rect (m : list (list (AST N))) : Prop :=
  m <> [] /\ exists c, 0 < c /\ forall r, In r m -> List.length r = c.
Hypothesis P_scalar : forall x : T, x = n0 \/ (exists t, nparse t = Some x) -> P (AScalar x).
Hypothesis P_op : forall op a b, P a -> P b -> P (AOp op a b).
Hypothesis P_var : forall n, @is_valid_var_name _ ParserError n = Ok true -> P (AVar n).
Hypothesis P_fun : forall n args, @is_valid_var_name _ ParserError n = Ok true -> args <> [] -> Forall P args -> P (AFun n args).
Hypothesis P_list : forall l, l <> [] -> Forall P l -> P (AList l).
Hypothesis P_vec : forall l, l <> [] -> Forall P l -> P (AVector l).
Hypothesis P_vec_inv : forall l, P (AVector l) -> l <> [] /\ Forall P l.
Hypothesis P_mat : forall m, rect m -> Forall (Forall P) m -> P (AMatrix m).
Hypothesis P_int : forall e x l u, P e -> P l -> P u -> P (AInt e x l u).
Hypothesis P_der : forall e x a, P e -> P a -> P (ADer e x a).
Hypothesis P_eq : forall eqs sv, Forall (fun q => P (fst q) /\ P (snd q)) eqs -> P (AEq eqs sv).

Notation good s := (sat P (fun _ : ParserError => True) (bad s) False).

Section Body.
Variable rec : str -> res ParserError (AST N).
Variable s0 : str.
Hypothesis Hrec : forall s, piece s s0 -> List.length s < List.length s0 -> good s0 (rec s).
Notation ok := (sat P (fun _ : ParserError => True) (bad s0) False).

Lemma mapM_rec_ok l : (forall s, In s l -> piece s s0 /\ List.length s < List.length s0) ->
  sat (fun ys => List.length ys = List.length l /\ Forall P ys) (fun _ => True) (bad s0) False (mapM rec l).
Proof.
  induction l as [|a l IH]; intros H; cbn [mapM]; [split; [reflexivity|constructor]|].
  eapply sat_bind; [apply Hrec; apply H; now left|]. intros y Hy.
  eapply sat_bind; [apply IH; intros; apply H; now right|]. intros ys [H1 H2]. cbn. split; [now f_equal|now constructor].
Qed.

Lemma slice_sat a b : a <= b -> b <= List.length s0 -> a + 1 <= List.length s0 - (b - a) + a ->
  sat (fun r => piece r s0 /\ List.length r = b - a) (fun _ : ParserError => True) (bad s0) False (slice s0 a b).
Proof.
  intros H1 H2 _. rewrite slice_ok by assumption. cbn. split.
  - apply piece_sub.
  - rewrite firstn_length, skipn_length. lia.
Qed.

Lemma transpose_lit_ok (m : list (list (AST N))) c :
  m <> [] -> (forall r, In r m -> List.length r = c) -> 0 < c -> Forall (Forall P) m ->
  sat (fun t => rect t /\ Forall (Forall P) t) (fun _ : ParserError => True) (bad s0) False (transpose_lit m).
Proof.
  intros Hm Hr Hc HP. unfold transpose_lit.
  destruct m as [|r0 m]; [congruence|].
  unfold idx at 1; cbn [nth_error unwrap bind]. rewrite (Hr r0) by now left.
  set (mm := r0 :: m) in *.
  assert (H : forall i, i < c -> exists row, mapM (fun r => idx r i) mm = @Ok ParserError _ row /\ List.length row = List.length mm /\ Forall P row).
  { intros i Hi. assert (Hall : forall l, incl l mm -> exists row, mapM (fun r => idx r i) l = @Ok ParserError _ row /\ List.length row = List.length l /\ Forall P row).
    { induction l as [|r l IH]; intros Hl; cbn [mapM]; [exists []; repeat split; constructor|].
      destruct IH as (row & H1 & H2 & H3); [intros z Hz; apply Hl; now right|].
      assert (Hin : In r mm) by (apply Hl; now left).
      destruct (nth_error r i) as [x|] eqn:Ex.
      - unfold idx at 1. rewrite Ex; cbn [unwrap bind]. rewrite H1; cbn [bind]. exists (x :: row). repeat split; [cbn; congruence|].
        constructor; [|exact H3]. rewrite Forall_forall in HP. specialize (HP r Hin). rewrite Forall_forall in HP.
        apply HP. eapply nth_error_In, Ex.
      - apply nth_error_None in Ex. rewrite (Hr r Hin) in Ex. lia. }
    apply Hall, incl_refl. }
  assert (Hseq : forall l, (forall i, In i l -> i < c) -> exists t, mapM (fun i => mapM (fun r => idx r i) mm) l = @Ok ParserError _ t /\
     List.length t = List.length l /\ (forall r, In r t -> List.length r = List.length mm) /\ Forall (Forall P) t).
  { induction l as [|i l IH]; intros Hl; cbn [mapM]; [exists []; repeat split; [easy|constructor]|].
    destruct (H i) as (row & H1 & H2 & H3); [apply Hl; now left|].
    destruct IH as (t & H4 & H5 & H6 & H7); [intros; apply Hl; now right|].
    rewrite H1; cbn [bind]; rewrite H4; cbn [bind]. exists (row :: t). repeat split.
    - cbn; congruence. - intros r [<-|Hin]; auto. - now constructor. }
  destruct (Hseq (seq 0 c)) as (t & H1 & H2 & H3 & H4); [intros i Hi; apply in_seq in Hi; lia|].
  rewrite H1. cbn. split; [|exact H4]. rewrite seq_length in H2. split.
  - intros ->. cbn in H2. lia.
  - exists (List.length mm). split; [unfold mm; cbn; lia|exact H3].
Qed.

Lemma bracket_ok inner : piece inner s0 -> List.length inner < List.length s0 ->
  ok (let args := get_args inner in
      if match args with [] => true | [] :: _ => true | _ => false end then Err EmptyVec
      else
        do out <- mapM rec args;
        let is_vec := forallb (fun a => match a with AVector _ => false | _ => true end) out in
        let is_mat := forallb (fun a => match a with AMatrix _ => false | _ => true end) out in
        if (is_vec && is_mat)%bool then Ok (AVector out)
        else if (is_mat && negb is_vec)%bool then
          do m <- mapM (fun a => match a with AVector v => Ok v | _ => Err NotRectMatrix end) out;
          do size <- (do r <- idx m 0; Ok (List.length r));
          if negb (forallb (fun r => Nat.eqb (List.length r) size) m) then Err NotRectMatrix
          else if row_major then Ok (AMatrix m)
          else do c <- transpose_lit m; Ok (AMatrix c)
        else Err (ParseValue s0)).
Proof.
  intros Hinc Hlen. cbn zeta.
      destruct (get_args inner) as [|[|a0 a] args] eqn:Ea; try exact I.
      assert (Hp : forall a, In a (get_args inner) -> piece a s0 /\ List.length a < List.length s0).
      { intros x Hx. pose proof (get_args_pieces _ _ Hx) as [_ Hx2]. split; [eapply piece_trans; [eapply get_args_piece|]; eauto|lia]. }
      rewrite Ea in Hp. eapply sat_bind; [now apply mapM_rec_ok|]. intros out [Ho1 Ho2].
      assert (Hone : out <> []) by (intros ->; discriminate Ho1).
      destruct (_ && _)%bool; [now apply P_vec|]. destruct (_ && _)%bool; [|exact I].
      eapply (sat_bind (fun m => m <> [] /\ Forall (fun r => r <> [] /\ Forall P r) m)).
      * clear -Hone Ho2 P_vec_inv.
        assert (H : sat (fun m => List.length m = List.length out /\ Forall (fun r => r <> [] /\ Forall P r) m)
                        (fun _ : ParserError => True) (bad s0) False
           (mapM (fun a => match a with AVector v => Ok v | _ => Err NotRectMatrix end) out)).
        { clear Hone. induction out as [|x out IH]; cbn [mapM]; [repeat constructor|]. inversion Ho2; subst.
          destruct x; try exact I. cbn [bind]. eapply sat_bind; [now apply IH|]. intros ys [Hy1 Hy2]. cbn.
          split; [congruence|]. constructor; [now apply P_vec_inv|exact Hy2]. }
        eapply sat_impl; [|auto..|exact H]; auto. intros m [Hm1 Hm2]. split; [|exact Hm2]. intros ->. cbn in Hm1.
        destruct out; [congruence|discriminate].
      * intros m [Hm1 Hm2]. destruct m as [|r0 m]; [congruence|]. unfold idx at 1; cbn [nth_error unwrap bind].
        destruct (forallb _ (r0 :: m)) eqn:Ef; cbn [negb]; [|exact I].
        assert (Hr : forall r, In r (r0 :: m) -> List.length r = List.length r0).
        { rewrite forallb_forall in Ef. intros r Hin. now apply Nat.eqb_eq, Ef. }
        assert (Hc : 0 < List.length r0). { inversion Hm2 as [|? ? [Hx _] _]; subst. destruct r0; [congruence|cbn; lia]. }
        assert (HP : Forall (Forall P) (r0 :: m)). { eapply Forall_impl; [|exact Hm2]. intros r [_ ?]; assumption. }
        destruct row_major.
        -- apply P_mat; [split; [discriminate|eauto]|exact HP].
        -- eapply sat_bind; [eapply transpose_lit_ok; eauto; discriminate|]. intros t' [Ht1 Ht2]. now apply P_mat.
Qed.

Hypothesis Hp0 : psum s0 = 0%Z.
Hypothesis Hsel0 : select_op (scan_ops s0 s0 0 92%N 0 0 0) = None.
Lemma bad_here : bad_atom s0 -> bad s0.
Proof. intros H. exists s0. split; [apply piece_refl|auto]. Qed.

Lemma parse_value_ok : ok (parse_value rec s0).
Proof.
  unfold parse_value. destruct (negb (contains s0 91%N)) eqn:Ec.
  - destruct (nparse s0) eqn:En0; [apply P_scalar; right; eauto|exact I].
  - destruct (Nat.leb_spec 2 (byte_len s0)) as [Hl|]; [|exact I].
    destruct s0 as [|c0 t] eqn:Es; [cbn in Ec; discriminate|]. rewrite <- Es in *.
    assert (Hi : @idx ParserError _ s0 0 = Ok c0) by (rewrite Es; reflexivity). rewrite Hi; cbn [bind].
    destruct (N.eqb_spec c0 91) as [->|Hc0]; [|exact I].
    destruct (foreign_dec t) as [Hf|Hf].
    + (* not ASCII: panics are allowed, but the recursion still terminates *)
      assert (Hb : bad s0) by (apply bad_here; right; exists t; auto).
      assert (Hbr : sat (fun _ => True) (fun _ : ParserError => True) (bad s0) False
        (do cl <- idx s0 (byte_len s0 - 1); Ok (N.eqb cl 93))).
      { unfold idx. destruct (nth_error _ _); cbn; auto. }
      eapply sat_bind; [exact Hbr|]. intros br _. destruct br; [|exact I].
      destruct (slice s0 1 (byte_len s0 - 1)) as [inner|e| |] eqn:Esl; cbn [bind]; [| |exact Hb|].
      2:{ unfold slice in Esl. destruct (_ && _)%bool in Esl; discriminate. }
      2:{ unfold slice in Esl. destruct (_ && _)%bool in Esl; discriminate. }
      pose proof (slice_piece _ _ _ _ Esl) as Hinc. apply slice_inv in Esl as (H1 & H2 & H3).
      assert (Hlen : List.length inner < List.length s0).
      { subst inner. rewrite firstn_length, skipn_length. rewrite Es in *; cbn in *; lia. }
      now apply bracket_ok.
    + (* ASCII *)
      assert (Hfs : ~ foreign s0).
      { rewrite Es. intros (c & [<-|Hin] & Hc); [discriminate|]. apply Hf. exists c. auto. }
      rewrite (byte_len_ascii s0 Hfs) in *.
      assert (Hbr : exists br, (do cl <- idx s0 (List.length s0 - 1); Ok (N.eqb cl 93)) = @Ok ParserError _ br).
      { rewrite (idx_nth s0 _ 0%N) by lia. cbn; eauto. }
      destruct Hbr as [br Hbr]. rewrite Hbr; cbn [bind]. destruct br; [|exact I].
      rewrite slice_ok by lia. cbn [bind]. set (inner := firstn _ _).
      assert (Hinc : piece inner s0) by (unfold inner; apply piece_sub).
      assert (Hlen : List.length inner < List.length s0) by (unfold inner; rewrite firstn_length, skipn_length; lia).
      clearbody inner.
      now apply bracket_ok.
Qed.

Lemma parse_split_ok e : In e (scan_ops s0 s0 0 92%N 0 0 0) -> ok (parse_split rec s0 e).
Proof.
  destruct e as [[op i] w]. intros Hin. apply scan_ops_pos in Hin as [[_ Hi] Hw]. cbn [plus] in Hi.
  assert (Hiw : i + w <= List.length s0 /\ 0 < i + w).
  { destruct Hw as [->|[-> [H|[H|H]]]]; [lia|lia|discriminate H..]. }
  unfold parse_split. rewrite slice_ok by lia. cbn [bind]. rewrite slice_ok by lia. cbn [bind].
  set (rs := firstn _ (skipn (i + w) s0)). set (ls := firstn _ (skipn 0 s0)).
  assert (Hrs : piece rs s0 /\ List.length rs < List.length s0).
  { split; [apply piece_sub|]. unfold rs. rewrite firstn_length, skipn_length. lia. }
  assert (Hls : piece ls s0 /\ List.length ls < List.length s0).
  { split; [apply piece_sub|]. unfold ls. cbn [skipn]. rewrite firstn_length. lia. }
  eapply sat_bind; [now apply Hrec|]. intros r Hr.
  destruct ls as [|x ls']; [apply P_op; auto|].
  eapply sat_bind; [now apply Hrec|]. intros l Hl. now apply P_op.
Qed.

Lemma starts_with_len s p : starts_with s p = true -> List.length p <= List.length s.
Proof.
  revert s; induction p as [|y p IH]; intros [|x s]; cbn; try lia; try discriminate.
  intros H; apply andb_true_iff in H as [_ H]. apply IH in H; lia.
Qed.

(** The text between an opening prefix and the last character. *)
Lemma inner_sat a : 0 < a -> a <= List.length s0 - 1 ->
  sat (fun r => piece r s0 /\ List.length r < List.length s0) (fun _ : ParserError => True) (bad s0) False
      (slice s0 a (List.length s0 - 1)).
Proof.
  intros H1 H2. rewrite slice_ok by lia. cbn. split.
  - apply piece_sub.
  - rewrite firstn_length, skipn_length. lia.
Qed.
Lemma args_sat inner : piece inner s0 -> List.length inner < List.length s0 ->
  forall a, In a (get_args inner) -> piece a s0 /\ List.length a < List.length s0.
Proof.
  intros H1 H2 a Ha. pose proof (get_args_pieces _ _ Ha) as [_ Ha2]. split; [eapply piece_trans; [eapply get_args_piece|]; eauto|lia].
Qed.

(** A string that starts with ["name("] and has as many [')'] as ['('] is
    longer than the prefix. *)
Lemma starts_with_app s p : starts_with s p = true -> exists t, s = p ++ t.
Proof.
  revert s; induction p as [|y p IH]; intros s H; [now exists s|].
  destruct s as [|x s]; cbn in H; [discriminate|]. apply andb_true_iff in H as [H1 H2].
  apply N.eqb_eq in H1 as ->. apply IH in H2 as (t & ->). now exists t.
Qed.
Lemma prefix_room p : starts_with s0 p = true -> psum p = 1%Z -> psum s0 = 0%Z ->
  List.length p <= List.length s0 - 1.
Proof.
  intros H H1 H2. apply starts_with_app in H as (t & Ht). rewrite Ht in *. rewrite psum_app in H2.
  destruct t; [cbn in H2; lia|]. rewrite app_length. cbn. lia.
Qed.

Lemma parse_builtin_ok op p : 0 < List.length p -> List.length p <= List.length s0 - 1 -> ok (parse_builtin rec s0 op p).
Proof.
  intros H1 H2. unfold parse_builtin. eapply sat_bind; [now apply inner_sat|]. intros inner [Hi1 Hi2].
  pose proof (args_sat inner Hi1 Hi2) as Ha.
  destruct (op_eqb op ORoot).
  - destruct (get_args inner) as [|a [|b [|c l]]]; try exact I.
    eapply sat_bind; [apply Hrec; apply Ha; cbn; auto|]. intros x Hx.
    eapply sat_bind; [apply Hrec; apply Ha; cbn; auto|]. intros y Hy. now apply P_op.
  - eapply sat_bind; [now apply Hrec|]. intros x Hx. apply P_op; [assumption|apply P_scalar; now left].
Qed.

Definition eq_entry_ok (e : str + AST N * AST N) : Prop :=
  match e with inl _ => True | inr q => P (fst q) /\ P (snd q) end.
Lemma parse_eq_entry_ok i : piece i s0 -> List.length i < List.length s0 ->
  sat eq_entry_ok (fun _ : ParserError => True) (bad s0) False (parse_eq_entry rec i).
Proof.
  intros H1 H2. unfold parse_eq_entry. destruct (contains i 61%N) eqn:Ec; cbn [negb]; [|exact I].
  destruct (contains_after _ _ Ec) as (rest & Hrest). rewrite Hrest. cbn [unwrap bind].
  pose proof (after_piece _ _ _ Hrest) as Hr1. apply after_incl in Hrest as [_ Hr2].
  assert (Hl : good s0 (rec (before 61%N i))).
  { apply Hrec; [eapply piece_trans; [apply before_piece|exact H1]|]. pose proof (before_length 61%N i). lia. }
  assert (Hr : good s0 (rec (before 61%N rest))).
  { apply Hrec; [eapply piece_trans; [apply before_piece|eapply piece_trans; eauto]|]. pose proof (before_length 61%N rest). lia. }
  destruct (Nat.leb _ _).
  - eapply sat_bind; [exact Hl|]. intros x Hx. eapply sat_bind; [exact Hr|]. intros y Hy. now split.
  - eapply sat_bind; [exact Hr|]. intros x Hx. eapply sat_bind; [exact Hl|]. intros y Hy. now split.
Qed.

Lemma parse_advanced_ok op p : 0 < List.length p -> List.length p <= List.length s0 - 1 -> ok (parse_advanced rec s0 op p).
Proof.
  intros H1 H2. unfold parse_advanced. eapply sat_bind; [now apply inner_sat|]. intros inner [Hi1 Hi2].
  pose proof (args_sat inner Hi1 Hi2) as Ha. cbv zeta. destruct op.
  - destruct (get_args inner) as [|a [|b [|c [|d [|? l]]]]]; try exact I.
    eapply sat_bind; [apply Hrec; apply Ha; cbn; auto|]. intros x Hx.
    eapply sat_bind; [apply Hrec; apply Ha; cbn; auto|]. intros y Hy.
    eapply sat_bind; [apply Hrec; apply Ha; cbn; auto|]. intros z Hz. now apply P_int.
  - destruct (get_args inner) as [|a [|b [|c [|? l]]]]; try exact I.
    eapply sat_bind; [apply Hrec; apply Ha; cbn; auto|]. intros x Hx.
    eapply sat_bind; [apply Hrec; apply Ha; cbn; auto|]. intros y Hy. now apply P_der.
  - eapply sat_bind.
    + apply sat_mapM with (P := eq_entry_ok). intros i Hi. apply parse_eq_entry_ok; now apply Ha.
    + intros es Hes. apply P_eq. apply Forall_forall. intros q Hq. apply in_flat_map in Hq as (e & He1 & He2).
      rewrite Forall_forall in Hes. specialize (Hes e He1). destruct e; [easy|]. destruct He2 as [<-|[]]. exact Hes.
Qed.

Lemma before_nonempty c x t : N.eqb x c = false -> before c (x :: t) <> [].
Proof. intros H; cbn. rewrite H. discriminate. Qed.
Lemma is_valid_sat v : v <> [] -> sat (fun b => b = true -> @is_valid_var_name _ ParserError v = Ok true) (fun _ : ParserError => True) (bad s0) False
   (is_valid_var_name v).
Proof. intros Hv. destruct (is_valid_var_name v) as [b| | |] eqn:E; destruct v; try easy; cbn in *; try (intros ->; congruence);
  destruct (_ && _)%bool in E; discriminate. Qed.

Lemma parse_call_ok c0 t : s0 = c0 :: t -> N.eqb c0 40 = false -> contains s0 40%N = true -> N.eqb (last s0 c0) 41 = true -> ok (parse_call rec s0).
Proof.
  intros Hs H0 Hc Hl. unfold parse_call. cbv zeta.
  destruct (contains_split _ _ Hc) as (u & Hu).
  assert (Hlen : List.length s0 = List.length (before 40%N s0) + 1 + List.length u).
  { rewrite Hu at 1. rewrite app_length. cbn. lia. }
  assert (Hne : before 40%N s0 <> []) by (rewrite Hs; now apply before_nonempty).
  assert (Hu0 : u <> []).
  { intros ->. rewrite Hu, last_last in Hl. discriminate. }
  assert (Hb1 : List.length (before 40%N s0) <= byte_len (before 40%N s0)) by apply byte_len_ge.
  eapply (sat_bind (fun r => piece r s0 /\ List.length r < List.length s0)).
  - destruct (foreign_dec (before 40%N s0)) as [Hf|Hf].
    + assert (Hb : bad s0).
      { apply bad_here. left. destruct (exists_last Hu0) as (v & z & ->). exists (before 40%N s0), v. split; [|split; [apply before_no|exact Hf]].
        rewrite Hu in Hl at 1. change (before 40%N s0 ++ 40%N :: v ++ [z]) with (before 40%N s0 ++ (40%N :: v) ++ [z]) in Hl.
        rewrite app_assoc, last_last in Hl. apply N.eqb_eq in Hl as <-. exact Hu. }
      destruct (slice s0 _ _) eqn:Esl; cbn; [|unfold slice in Esl; destruct (_ && _)%bool in Esl; discriminate|exact Hb|
        unfold slice in Esl; destruct (_ && _)%bool in Esl; discriminate].
      pose proof (slice_piece _ _ _ _ Esl) as Hinc. apply slice_inv in Esl as (E1 & E2 & ->). split; [exact Hinc|].
      rewrite firstn_length, skipn_length. lia.
    + apply inner_sat; [lia|]. rewrite byte_len_ascii by exact Hf.
      destruct u; [congruence|cbn in Hlen; lia].
  - intros inner [Hi1 Hi2]. eapply sat_bind; [apply mapM_rec_ok; now apply args_sat|].
    intros args [Ha1 Ha2]. eapply sat_bind; [now apply is_valid_sat|]. intros b Hb. destruct b; [|exact I].
    apply P_fun; auto. intros ->. apply (get_args_nonempty inner). now destruct (get_args inner).
Qed.

Lemma try_prefix_ok {A} (l : list (A * str)) k o :
  (forall a p, In (a, p) l -> starts_with s0 p = true -> ok (k a p)) -> ok o -> ok (try_prefix s0 l k o).
Proof.
  induction l as [|[a p] l IH]; intros H Ho; cbn [try_prefix]; [exact Ho|].
  destruct (starts_with s0 p) eqn:E; [apply H; [now left|exact E]|]. apply IH; [|exact Ho].
  intros; apply H; [now right|assumption].
Qed.

Lemma psum_prefix_ops : forall op p, In (op, p) function_look_up -> 0 < List.length p /\ psum p = 1%Z.
Proof. intros op p H. cbn in H. repeat (destruct H as [H|H]; [injection H as <- <-; split; [cbn; lia|reflexivity]|]). easy. Qed.
Lemma psum_prefix_adv : forall op p, In (op, p) advanced_look_up -> 0 < List.length p /\ psum p = 1%Z.
Proof. intros op p H. cbn in H. repeat (destruct H as [H|H]; [injection H as <- <-; split; [cbn; lia|reflexivity]|]). easy. Qed.

Lemma parse_atom_ok c0 t : s0 = c0 :: t -> ok (parse_atom rec s0 c0 (last s0 c0)).
Proof.
  intros Hs. pose proof Hp0 as Hp. unfold parse_atom. apply try_prefix_ok.
  { intros op p Hin Hst. apply psum_prefix_ops in Hin as [H1 H2]. apply parse_builtin_ok; [exact H1|]. now apply prefix_room. }
  apply try_prefix_ok.
  { intros op p Hin Hst. apply psum_prefix_adv in Hin as [H1 H2]. apply parse_advanced_ok; [exact H1|]. now apply prefix_room. }
  destruct (contains s0 40%N && negb (N.eqb c0 40) && N.eqb (last s0 c0) 41)%bool eqn:E.
  { apply andb_true_iff in E as [E E3]. apply andb_true_iff in E as [E1 E2]. apply negb_true_iff in E2.
    eapply parse_call_ok; eauto. }
  destruct (is_alphabetic c0 || N.eqb c0 92)%bool.
  { eapply sat_bind; [apply is_valid_sat; rewrite Hs; discriminate|]. intros b Hb. destruct b; [now apply P_var, Hb|exact I]. }
  destruct (N.eqb c0 123 && N.eqb (last s0 c0) 125)%bool eqn:E2; [|apply parse_value_ok].
  apply andb_true_iff in E2 as [E2 E3].
  assert (H2 : 1 <= List.length s0 - 1).
  { rewrite Hs in E3 |- *. destruct t; [|cbn; lia]. cbn in E3. apply N.eqb_eq in E2 as ->. discriminate. }
  eapply sat_bind; [apply inner_sat; [lia|exact H2]|]. intros inner [Hi1 Hi2].
  eapply sat_bind; [apply mapM_rec_ok; now apply args_sat|]. intros es [He1 He2].
  apply P_list; [|exact He2]. intros ->. apply (get_args_nonempty inner). now destruct (get_args inner).
Qed.

End Body.

Section Whole.
Variable rec : str -> res ParserError (AST N).
Variable s0 : str.
Hypothesis Hrec : forall s, piece s s0 -> List.length s < List.length s0 -> good s0 (rec s).
Notation ok := (sat P (fun _ : ParserError => True) (bad s0) False).
Lemma parse_body_ok : ok (parse_body rec s0).
Proof.
  unfold parse_body. destruct s0 as [|c0 t] eqn:Es; [exact I|]. rewrite <- Es in *.
  pose proof (paren_scan_fst s0 0 true) as Hf. destruct (paren_scan s0 0 true) as [po chk]. cbn [fst] in Hf.
  destruct (Z.ltb_spec 0 po); [exact I|]. destruct (Z.ltb_spec po 0); [exact I|].
  destruct (chk && N.eqb c0 40 && N.eqb (last s0 c0) 41)%bool eqn:E.
  - apply andb_true_iff in E as [E E3]. apply andb_true_iff in E as [E1 E2].
    assert (H2 : 1 <= List.length s0 - 1).
    { rewrite Es in E3 |- *. destruct t; [|cbn; lia]. cbn in E3. apply N.eqb_eq in E2 as ->. discriminate. }
    eapply sat_bind; [apply inner_sat; [lia|exact H2]|]. intros inner [Hi1 Hi2].
    eapply sat_bind; [now apply Hrec|]. intros l Hl. apply P_op; auto.
  - destruct (select_op _) as [e|] eqn:Esel.
    + apply parse_split_ok; [exact Hrec|]. now apply select_op_in.
    + eapply parse_atom_ok; [exact Hrec|lia|exact Esel|exact Es].
Qed.
End Whole.

(** [parse_inner] with more fuel than characters: it returns, panics only if
    there is a non-ASCII character, and every AST it returns satisfies [P]. *)
Theorem parse_inner_sat fuel : forall s, List.length s < fuel -> good s (parse_inner fuel s).
Proof.
  induction fuel as [|fuel IH]; intros s Hs; [lia|]. cbn [parse_inner]. apply parse_body_ok.
  intros s' Hinc Hlen. eapply sat_impl; [..|apply IH; lia]; auto. now apply bad_piece.
Qed.
End Scan.
