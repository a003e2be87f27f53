(** * Parens: parentheses and the multiplication sign do not matter. *)
From Coq Require Import List NArith ZArith Bool Lia Arith.
From Verif Require Import Base BaseFacts F64 Num Types Maths Helpers Parser Eval EvalFuel SpecEval EvalProofs EvalRel PropLatex.
Import ListNotations.

Section Parens.
Context {N : Num} {En : Env}.
Notation V := (Value N).

(** The tree without parentheses, and with every product written with a sign. *)
Fixpoint plain_tree (a : AST N) : AST N :=
  match a with
  | AScalar x => AScalar x
  | AVar n => AVar n
  | AVector l => AVector (map plain_tree l)
  | AMatrix m => AMatrix (map (map plain_tree) m)
  | AList l => AList (map plain_tree l)
  | AFun n l => AFun n (map plain_tree l)
  | AOp OParenths a (AScalar _) => plain_tree a
  | AOp OHiddenMult l r => AOp OMult (plain_tree l) (plain_tree r)
  | AOp op l r => AOp op (plain_tree l) (plain_tree r)
  | AInt e x l u => AInt (plain_tree e) x (plain_tree l) (plain_tree u)
  | ADer e x p => ADer (plain_tree e) x (plain_tree p)
  | AEq eqs xs => AEq (map (fun q => (plain_tree (fst q), plain_tree (snd q))) eqs) xs
  end.
Definition plain_fun (f : MFun N) : MFun N := mkFun (fun_name f) (plain_tree (fun_ast f)) (fun_inputs f).
Definition plain_ctx (c : Ctx N) : Ctx N := mkCtx (vars c) (map plain_fun (funs c)).

Definition is_parens (op : SimpleOp) (r : AST N) : bool := match op, r with OParenths, AScalar _ => true | _, _ => false end.
Definition plain_op (op : SimpleOp) : SimpleOp := match op with OHiddenMult => OMult | o => o end.
Lemma plain_op_tree op l r : is_parens op r = false -> plain_tree (AOp op l r) = AOp (plain_op op) (plain_tree l) (plain_tree r).
Proof. destruct op; try reflexivity. destruct r; try reflexivity. discriminate. Qed.
Lemma is_parens_eq op r : is_parens op r = true -> exists z, op = OParenths /\ r = AScalar z.
Proof. destruct op; try discriminate. destruct r; try discriminate. eauto. Qed.
Lemma plain_op_apply op x y : @apply_op N op x y = apply_op (plain_op op) x y.
Proof. now destruct op. Qed.

(** The number of parentheses. *)
Definition total (l : list nat) : nat := fold_right Nat.add 0 l.
Fixpoint parens_in (a : AST N) : nat :=
  match a with
  | AScalar _ | AVar _ => 0
  | AVector l | AList l | AFun _ l => total (map parens_in l)
  | AMatrix m => total (map (fun r => total (map parens_in r)) m)
  | AOp op l r => (if is_parens op r then 1 else 0) + parens_in l + parens_in r
  | AInt e _ l u => parens_in e + parens_in l + parens_in u
  | ADer e _ p => parens_in e + parens_in p
  | AEq eqs _ => total (map (fun q => parens_in (fst q) + parens_in (snd q)) eqs)
  end.
Lemma total_in {A} (f : A -> nat) l x : In x l -> f x <= total (map f l).
Proof. unfold total. induction l as [|y l IH]; [intros []|]. cbn. intros [->|H]; [lia|]. apply IH in H. lia. Qed.

Lemma plain_value v : plain_tree (ast_from_value v) = ast_from_value v.
Proof.
  destruct v as [m|l|x]; cbn [ast_from_value plain_tree]; [| |reflexivity].
  - f_equal. rewrite map_map. apply map_ext. intros r. rewrite map_map. apply map_ext. reflexivity.
  - f_equal. rewrite map_map. apply map_ext. reflexivity.
Qed.
Lemma plain_quotient x y : plain_tree (quotient_ast x y) = quotient_ast x y.
Proof. unfold quotient_ast. cbn [plain_tree]. now rewrite !plain_value. Qed.
Lemma total_zero {A} (f : A -> nat) l : (forall x, In x l -> f x = 0) -> total (map f l) = 0.
Proof. unfold total. induction l as [|y l IH]; intros H; [reflexivity|]. cbn. rewrite H by now left. apply IH. intros; apply H; now right. Qed.
Lemma parens_value (v : V) : parens_in (ast_from_value v) = 0.
Proof.
  destruct v as [m|l|x]; cbn [ast_from_value parens_in]; [| |reflexivity].
  - rewrite map_map. apply total_zero. intros r _. rewrite map_map. now apply total_zero.
  - rewrite map_map. now apply total_zero.
Qed.
Lemma parens_quotient (x y : V) : parens_in (quotient_ast x y) = 0.
Proof. unfold quotient_ast. cbn [parens_in is_parens]. now rewrite !parens_value. Qed.

Lemma plain_lookup c n : lookup_fun (plain_ctx c) n = option_map plain_fun (lookup_fun c n).
Proof. unfold lookup_fun, plain_ctx. cbn [funs]. induction (funs c) as [|f l IH]; [reflexivity|]. cbn. destruct (str_eqb (fun_name f) n); [reflexivity|exact IH]. Qed.
Lemma lookup_fun_in (c : Ctx N) n f : lookup_fun c n = Some f -> In f (funs c).
Proof. unfold lookup_fun. intros H. apply find_some in H. tauto. Qed.
Lemma concatM_map {E A B C} (f : B -> res E (list C)) (g : A -> B) l : concatM f (map g l) = concatM (fun x => f (g x)) l.
Proof. unfold concatM. now rewrite mapM_map. Qed.
Lemma rle_mapM_in {E A B} (f f' : A -> res E B) l : (forall a, In a l -> rle (f a) (f' a)) -> rle (mapM f l) (mapM f' l).
Proof.
  induction l as [|x l IH]; intros H; cbn [mapM]; [apply rle_refl|]. apply rle_bind; [apply H; now left|]. intros y.
  apply rle_bind; [apply IH; intros; apply H; now right|intros; apply rle_refl].
Qed.
Lemma rle_concatM_in {E A B} (f f' : A -> res E (list B)) l : (forall a, In a l -> rle (f a) (f' a)) -> rle (concatM f l) (concatM f' l).
Proof. intros H. unfold concatM. apply rle_bind; [now apply rle_mapM_in|intros; apply rle_refl]. Qed.

(** ** Evaluating the plain tree takes no more fuel *)
Lemma parens_eval f a z c l : eval_rec (S (S f)) (AOp OParenths a (AScalar z)) c l = eval_rec (S f) a c l.
Proof.
  change (eval_rec (S (S f)) (AOp OParenths a (AScalar z)) c l) with
      (do lv <- eval_rec (S f) a c l; do rv <- eval_rec (S f) (AScalar z) c l; concatM (fun i => concatM (fun j => apply_op OParenths i j) rv) lv).
  destruct (eval_rec (S f) a c l) as [lv|er| |]; cbn [bind]; try reflexivity.
  change (eval_rec (S f) (AScalar z) c l) with (@Ok EvalError _ [@Scalar N z]). cbn [bind].
  unfold concatM at 1. induction lv as [|v lv IH]; [reflexivity|]. cbn [mapM]. unfold concatM at 1. cbn [mapM bind].
  change (apply_op OParenths v (@Scalar N z)) with (@Ok EvalError _ [v]). cbn [bind List.concat app].
  destruct (mapM _ lv) as [t|er| |]; cbn [bind] in *; try discriminate. f_equal. cbn. f_equal. congruence.
Qed.

(** One step of evaluation, both terms being operators other than parentheses. *)
Lemma plain_eval f : forall a c l, rle (eval_rec f a c l) (eval_rec f (plain_tree a) (plain_ctx c) l).
Proof.
  induction f as [|f IH]; intros a c l; [apply rle_fuel|].
  destruct a as [x|v|m|v|n|n args|op a b|e x a b|e x a|eqs xs].
  - apply rle_refl.
  - cbn [plain_tree eval_rec]. rewrite mapM_map. apply rle_bind; [|intros; apply rle_refl]. apply rle_mapM. intros i. apply rle_bind; [apply IH|intros; apply rle_refl].
  - cbn [plain_tree eval_rec]. rewrite mapM_map. apply rle_bind; [|intros; apply rle_refl]. apply rle_mapM. intros r. rewrite mapM_map.
    apply rle_mapM. intros i. apply rle_bind; [apply IH|intros; apply rle_refl].
  - cbn [plain_tree eval_rec]. rewrite concatM_map. apply rle_concatM. intros i. apply IH.
  - apply rle_refl.
  - cbn [plain_tree eval_rec]. destruct (str_eqb l n); [apply rle_refl|]. rewrite plain_lookup. destruct (lookup_fun c n) as [fn|]; cbn [option_map]; [|apply rle_refl].
    rewrite map_length. cbn [plain_fun fun_inputs fun_ast]. destruct (negb _); [apply rle_refl|]. rewrite mapM_map.
    apply rle_bind; [apply rle_mapM; intros; apply IH|]. intros p. apply rle_concatM. intros q.
    apply (IH (fun_ast fn) (mkCtx (call_vars (fun_inputs fn) q (vars c)) (funs c)) n).
  - destruct (is_parens op b) eqn:Ep.
    + apply is_parens_eq in Ep as (z & -> & ->). cbn [plain_tree]. destruct f as [|f]; [cbn; apply rle_fuel|]. rewrite parens_eval.
      eapply rle_trans; [apply IH|]. apply eval_rec_mono. lia.
    + rewrite plain_op_tree by exact Ep. cbn [eval_rec]. apply rle_bind; [apply IH|]. intros lv. apply rle_bind; [apply IH|]. intros rv.
      apply rle_concatM. intros i. apply rle_concatM. intros j. rewrite plain_op_apply. apply rle_refl.
  - cbn [plain_tree eval_rec]. apply rle_bind; [apply IH|]. intros lv. apply rle_bind; [apply IH|]. intros uv. apply rle_concatM. intros i. apply rle_concatM. intros j.
    apply (integral_rel _ _ (fun a b => b = plain_tree a) (fun c c' => c' = plain_ctx c) (fun _ => True)); auto; intros; subst; auto.
  - cbn [plain_tree eval_rec]. apply rle_bind; [apply IH|]. intros av. apply rle_concatM. intros i.
    apply (derivative_rel _ _ (fun a b => b = plain_tree a) (fun c c' => c' = plain_ctx c) (fun _ => True)); auto; intros; subst; auto.
    pose proof (IH (quotient_ast x0 y) c0 []) as H. now rewrite plain_quotient in H.
  - cbn [plain_tree eval_rec]. rewrite map_map. cbn [fst snd].
    apply (solve_rel _ _ (fun a b => b = plain_tree a) (fun c c' => c' = plain_ctx c) (fun _ => True)); auto; try (intros; subst; auto; fail).
    + intros; subst. pose proof (IH (quotient_ast x y) c0 []) as H. now rewrite plain_quotient in H.
    + induction eqs as [|q eqs IHq]; cbn [map]; constructor; auto.
    + intros e e' _ He He'. apply in_map_iff in He as (? & <- & _). apply in_map_iff in He' as (? & <- & _). reflexivity.
Qed.

(** ** and the other way round some more *)
Fixpoint heads (a : AST N) : nat := match a with AOp op a b => if is_parens op b then S (heads a) else 0 | _ => 0 end.
Lemma heads_parens a : heads a <= parens_in a.
Proof. induction a using tree_ind; cbn [heads parens_in]; try lia. destruct (is_parens op a2); lia. Qed.
Section Back.
Variable k : nat.
Definition few (c : Ctx N) : Prop := forall f, In f (funs c) -> parens_in (fun_ast f) <= k.
Lemma parens_back f : forall a c l, parens_in a <= k -> few c ->
  rle (eval_rec f (plain_tree a) (plain_ctx c) l) (eval_rec (f * S k + heads a) a c l).
Proof.
  induction f as [|f IH]; [intros; apply rle_fuel|].
  assert (IH' : forall a c l g, parens_in a <= k -> few c -> f * S k + k <= g ->
    rle (eval_rec f (plain_tree a) (plain_ctx c) l) (eval_rec g a c l)).
  { intros a c l g Ha Hc Hg. eapply rle_trans; [now apply IH|]. apply eval_rec_mono. pose proof (heads_parens a). lia. }
  assert (Hq : forall g x y c c', few c' -> f * S k + k <= g -> c = plain_ctx c' -> rle (eval_rec f (quotient_ast x y) c []) (eval_rec g (quotient_ast x y) c' [])).
  { intros g x y c c' Hc Hg ->. rewrite <- (plain_quotient x y) at 1. apply IH'; auto. rewrite parens_quotient. lia. }
  set (g := f * S k + k) in *.
  intros a c l Ha Hc.
  assert (Hgoal : forall a, parens_in a <= k -> heads a = 0 -> rle (eval_rec (S f) (plain_tree a) (plain_ctx c) l) (eval_rec (S g) a c l)).
  { clear a Ha. intros a Ha Hh.
    destruct a as [x|v|m|v|n|n args|op a b|e x a b|e x a|eqs xs]; cbn [parens_in] in Ha.
    - apply rle_refl.
    - cbn [plain_tree eval_rec]. rewrite mapM_map. apply rle_bind; [|intros; apply rle_refl]. apply rle_mapM_in. intros i Hi.
      pose proof (total_in parens_in v i Hi). apply rle_bind; [apply IH'; auto; lia|intros; apply rle_refl].
    - cbn [plain_tree eval_rec]. rewrite mapM_map. apply rle_bind; [|intros; apply rle_refl]. apply rle_mapM_in. intros r Hr. rewrite mapM_map.
      pose proof (total_in (fun r => total (map parens_in r)) m r Hr) as H1. cbv beta in H1.
      apply rle_mapM_in. intros i Hi. pose proof (total_in parens_in r i Hi). apply rle_bind; [apply IH'; auto; lia|intros; apply rle_refl].
    - cbn [plain_tree eval_rec]. rewrite concatM_map. apply rle_concatM_in. intros i Hi. pose proof (total_in parens_in v i Hi). apply IH'; auto; lia.
    - apply rle_refl.
    - cbn [plain_tree eval_rec]. destruct (str_eqb l n); [apply rle_refl|]. rewrite plain_lookup. destruct (lookup_fun c n) as [fn|] eqn:El; cbn [option_map]; [|apply rle_refl].
      rewrite map_length. cbn [plain_fun fun_inputs fun_ast]. destruct (negb _); [apply rle_refl|]. rewrite mapM_map.
      apply rle_bind; [apply rle_mapM_in; intros i Hi; pose proof (total_in parens_in args i Hi); apply IH'; auto; lia|]. intros p. apply rle_concatM. intros q.
      apply (IH' (fun_ast fn) (mkCtx (call_vars (fun_inputs fn) q (vars c)) (funs c)) n); auto. apply Hc. eapply lookup_fun_in; eauto.
    - cbn [heads] in Hh. destruct (is_parens op b) eqn:Ep; [discriminate|]. rewrite plain_op_tree by exact Ep. cbn [eval_rec].
      apply rle_bind; [apply IH'; auto; lia|]. intros lv. apply rle_bind; [apply IH'; auto; lia|]. intros rv.
      apply rle_concatM. intros i. apply rle_concatM. intros j. rewrite (plain_op_apply op). apply rle_refl.
    - cbn [plain_tree eval_rec]. apply rle_bind; [apply IH'; auto; lia|]. intros lv. apply rle_bind; [apply IH'; auto; lia|]. intros uv.
      apply rle_concatM. intros i. apply rle_concatM. intros j.
      apply (integral_rel _ _ (fun a b => a = plain_tree b /\ parens_in b <= k) (fun c c' => c = plain_ctx c' /\ few c') (fun _ => True)); auto.
      + intros ? ? ? ? [-> ?] [-> ?]. now apply IH'.
      + intros ? ? ? _ [-> ?]. split; auto.
      + intros ? ? ? _ [-> ?]. split; auto.
      + split; [reflexivity|lia].
      + lia.
    - cbn [plain_tree eval_rec]. apply rle_bind; [apply IH'; auto; lia|]. intros av. apply rle_concatM. intros i.
      apply (derivative_rel _ _ (fun a b => a = plain_tree b /\ parens_in b <= k) (fun c c' => c = plain_ctx c' /\ few c') (fun _ => True)); auto.
      + intros ? ? ? ? [-> ?] [-> ?]. now apply IH'.
      + intros ? ? ? ? [? ?]. apply Hq; auto.
      + intros ? ? ? _ [-> ?]. split; auto.
      + intros ? ? ? _ [-> ?]. split; auto.
      + split; [reflexivity|lia].
    - cbn [plain_tree eval_rec]. rewrite map_map. cbn [fst snd].
      apply (solve_rel _ _ (fun a b => a = plain_tree b /\ parens_in b <= k) (fun c c' => c = plain_ctx c' /\ few c') (fun _ => True)); auto.
      + intros ? ? ? ? [-> ?] [-> ?]. now apply IH'.
      + intros ? ? ? ? [? ?]. apply Hq; auto.
      + intros ? ? ? _ [-> ?]. split; auto.
      + intros ? ? ? _ [-> ?]. split; auto.
      + intros ? ? ? _ [-> ?]. split; auto.
      + intros ? ? ? _ [-> ?]. reflexivity.
      + assert (Hs : forall q, In q eqs -> parens_in (fst q) + parens_in (snd q) <= k).
        { intros q Hq'. pose proof (total_in (fun q => parens_in (fst q) + parens_in (snd q)) eqs q Hq') as H. cbv beta in H. lia. }
        clear - Hs. induction eqs as [|q eqs IHq]; cbn [map]; constructor.
        * split; [reflexivity|]. cbn [parens_in is_parens]. apply Hs. now left.
        * apply IHq. intros; apply Hs; now right.
      + intros e e' _ He He'. apply in_map_iff in He as (? & <- & _). apply in_map_iff in He' as (? & <- & _). reflexivity. }
  replace (S f * S k) with (S g) by (unfold g; lia).
  revert Ha. induction a using tree_ind; intros Ha; try (rewrite Nat.add_0_r; apply Hgoal; [exact Ha|reflexivity]).
  destruct (is_parens op a2) eqn:Ep.
  - cbn [heads]. rewrite Ep. apply is_parens_eq in Ep as (z & -> & ->). rewrite Nat.add_succ_r.
    change (S g + heads a1) with (S (g + heads a1)) in *. rewrite parens_eval. cbn [plain_tree]. apply IHa1. cbn [parens_in] in Ha. lia.
  - cbn [heads]. rewrite Ep. rewrite Nat.add_0_r. apply Hgoal; [exact Ha|]. cbn [heads]. now rewrite Ep.
Qed.
End Back.
Lemma few_exists (c : Ctx N) : exists k, few k c.
Proof.
  exists (total (map (fun f => parens_in (fun_ast f)) (funs c))). intros f Hf. apply (total_in (fun f => parens_in (fun_ast f)) _ _ Hf).
Qed.
(** The plain tree has the same outcomes. *)
Lemma plain_outcome a c r : outcome a c r <-> outcome (plain_tree a) (plain_ctx c) r.
Proof.
  split; intros [Hr [f0 H]]; specialize (H f0 (le_n _)).
  - apply (outcome_intro f0); [|exact Hr]. unfold eval in *. destruct (plain_eval f0 a c []) as [E|E]; congruence.
  - destruct (few_exists c) as [k0 Hk0]. set (k := k0 + parens_in a). assert (Hk : few k c) by (intros g Hg; specialize (Hk0 g Hg); unfold k; lia).
    pose proof (parens_back k f0 a c [] ltac:(unfold k; lia) Hk) as G. unfold eval in *. eapply outcome_intro; [|exact Hr]. unfold eval. destruct G as [E|E]; [congruence|]. now rewrite <- E.
Qed.
End Parens.
