(** * ExactGauss: inverse and linear systems in exact arithmetic. *)
From Coq Require Import ZArith Lia List String.
Set Warnings "-notation-overridden,-ambiguous-paths".
From mathcomp Require Import all_ssreflect all_algebra zify.
From Verif Require Import Base BaseFacts Num Types Maths Eval GrammarSpec MathsForms Exact ExactSpec ExactLinear ExactElim.
Import GRing.Theory Order.Theory mathcomp.algebra.ssrnum.Num.Theory.
Set Implicit Arguments.
Unset Strict Implicit.
Unset Printing Implicit Defensive.
Local Open Scope ring_scope.

Section Gauss.
Variables (F : archiFieldType) (L : lib F).
Notation NX := (Exact L).
Implicit Types W : nat -> nat -> F.

Definition mirror n k W (i j : nat) : F := W (n.-1 - i)%N (if (j < n)%N then n.-1 - j else n + (k.-1 - (j - n)))%N.
Lemma flip_fins n k W : (0 < n)%N -> flip k (fins L n (n + k) W) = fins L n (n + k) (mirror n k W).
Proof.
  move=> Hn. have Hk : (k <= n + k)%coq_nat by apply/ssrnat.leP; exact: leq_addl.
  apply: (shape_ext _ _ n (n + k)); [exact: flip_shape (fins_shape _ _ _ _)|exact: fins_shape|].
  move=> i j /ssrnat.ltP Hi /ssrnat.ltP Hj.
  rewrite (flip_ent _ _ n (n + k) i j Hk (fins_shape _ _ _ _) (elimT ssrnat.ltP Hi) (elimT ssrnat.ltP Hj)).
  have -> : (n + k - k)%coq_nat = n by rewrite -[LHS]/((n + k) - k)%N addnK.
  rewrite [RHS]fins_ent // /mirror.
  have -> : Nat.ltb j n = (j < n)%N by rewrite /Nat.ltb lebE.
  have E1 : (n - 1 - i)%coq_nat = (n.-1 - i)%N by lia.
  case: (ltnP j n) => Hjn.
  - have E2 : (n + k - 1 - (k + j))%coq_nat = (n.-1 - j)%N by lia.
    rewrite E1 E2 fins_ent ?Hjn //; lia.
  - have E2 : (n + k - 1 - (j - n))%coq_nat = (n + (k.-1 - (j - n)))%N by lia.
    rewrite E1 E2 fins_ent ?[(j < n)%N]ltnNge ?Hjn //; lia.
Qed.

(** [x] solves the linear system with the matrix [W] and the right-hand side in column [n + q]. *)
Definition solves n W q (x : nat -> F) : Prop := forall r, (r < n)%N -> \sum_(k < n) W r k * x k = W r (n + q)%N.
Lemma lrep_solves n c W0 W q x : lrep n c W0 W -> (n + q < c)%N -> solves n W0 q x -> solves n W q x.
Proof.
  move=> [U _ HU] Hq Hs r Hr. have Hnc : (n <= c)%N by apply: leq_trans (ltnW Hq); exact: leq_addr.
  rewrite HU //. under eq_bigr => k _ do rewrite HU ?(leq_trans (ltn_ord k)) // mulr_suml.
  rewrite exchange_big /=. apply: eq_bigr => t _. rewrite -(Hs t (ltn_ord t)) mulr_sumr.
  by apply: eq_bigr => k _; rewrite mulrA.
Qed.
Lemma mirror_solves n k W q x : (q < k)%N -> solves n W q x -> solves n (mirror n k W) (k.-1 - q)%N (fun i => x (n.-1 - i)%N).
Proof.
  move=> Hq Hs r Hr. have Hn : (0 < n)%N by exact: leq_ltn_trans Hr.
  have Hk : (0 < k)%N by exact: leq_ltn_trans Hq.
  rewrite {2}/mirror ltnNge leq_addr /= addKn subKn; last lia.
  rewrite -(Hs (n.-1 - r)%N); last lia.
  rewrite (reindex_inj rev_ord_inj) /=. apply: eq_bigr => t _.
  have E : (n.-1 - (n - t.+1))%N = t by have := ltn_ord t; lia.
  rewrite /mirror E. by have -> : (n - t.+1 < n)%N by have := ltn_ord t; lia.
Qed.
Lemma gauss_jordan {E} (zl : E) n k W0 : (0 < n)%N -> (forall m, (m <= n)%N -> \det (lead m W0) != 0) ->
  exists V W, [/\ elim zl n (n + k) (fins L n (n + k) W0) = Ok (fins L n (n + k) V),
    elim zl n (n + k) (flip k (fins L n (n + k) V)) = Ok (fins L n (n + k) W),
    (forall r, (r < n)%N -> W r r != 0) &
    (forall q x, (q < k)%N -> solves n W0 q x ->
       forall r, (r < n)%N -> W r (n + (k.-1 - q))%N / W r r = x (n.-1 - r)%N)].
Proof.
  move=> Hn Hd. have Hnc : (n <= n + k)%N := leq_addr _ _.
  have [V [E1 R1 U1]] := @elim_fin F L E zl n (n + k) W0 Hn Hnc Hd.
  have DV : \prod_(r < n) V r r != 0.
  { rewrite -(@upper_det F n n.-1 n V n) // ?prednK //; first by rewrite (lrep_minor R1) ?Hd.
    by move=> r t Ht Hr _; exact: U1. }
  have NV r : (r < n)%N -> V r r != 0.
  { move=> Hr. apply/eqP => Z. case/negP: DV. by rewrite (bigD1 (Ordinal Hr)) //= Z mul0r. }
  set M := mirror n k V.
  have LM r t : (r < t)%N -> (t < n)%N -> M r t = 0.
  { move=> Hr Ht. rewrite /M /mirror Ht. apply: U1; lia. }
  have DM m : (m <= n)%N -> \det (lead m M) != 0.
  { move=> Hm. rewrite det_trig; last by apply/is_trig_mxP => r t Hrt; rewrite mxE LM // (leq_trans (ltn_ord t)).
    apply/prodf_neq0 => r _. rewrite mxE /M /mirror (leq_trans (ltn_ord r)) //. apply: NV. lia. }
  have [W [E2 R2 U2]] := @elim_fin F L E zl n (n + k) M Hn Hnc DM.
  exists V, W. rewrite (flip_fins k V Hn). split=> //.
  - have DW : \prod_(r < n) W r r != 0.
    { rewrite -(@upper_det F n n.-1 n W n) // ?prednK //; first by rewrite (lrep_minor R2) ?DM.
      by move=> r t Ht Hr _; exact: U2. }
    move=> r Hr. apply/eqP => Z. case/negP: DW. by rewrite (bigD1 (Ordinal Hr)) //= Z mul0r.
  - move=> q x Hq Hs r Hr.
    have S1 := lrep_solves R1 (_ : n + q < n + k)%N Hs. rewrite ltn_add2l in S1.
    have S2 := mirror_solves Hq (S1 Hq).
    have S3 := lrep_solves R2 (_ : n + (k.-1 - q) < n + k)%N S2. 
    have Hq' : (n + (k.-1 - q) < n + k)%N by lia.
    have := S3 Hq' r Hr. rewrite (bigD1 (Ordinal Hr)) //= big1 ?addr0.
    + move=> <-. rewrite mulrAC mulfV ?mul1r //.
      have DW : \prod_(r < n) W r r != 0.
      { rewrite -(@upper_det F n n.-1 n W n) // ?prednK //; first by rewrite (lrep_minor R2) ?DM.
        by move=> r' t Ht Hr' _; exact: U2. }
      apply/eqP => Z. case/negP: DW. by rewrite (bigD1 (Ordinal Hr)) //= Z mul0r.
    + move=> t Ht. have Htr : (t : nat) != r by rewrite -(inj_eq val_inj) in Ht.
      case: (ltngtP t r) => Htr'; last by rewrite Htr' eqxx in Htr.
      * by rewrite U2 ?mul0r.
      * case: R2 => U [_ U0] HU. rewrite HU // ?(leq_trans (ltn_ord t)) // big1 ?mul0r // => s _.
        case: (ltnP r s) => Hrs; first by rewrite U0 ?mul0r.
        by rewrite LM ?mulr0 // (leq_ltn_trans Hrs).
Qed.

(** ** The inverse *)
Lemma minors_lead n (A : 'M[F]_n) : regular_minors A -> forall m, (m <= n)%N -> \det (lead m (fn A)) != 0.
Proof.
  move=> H m Hm. have := H m Hm. congr (\det _ != 0). apply/matrixP => i j. by rewrite !mxE -fn_ord.
Qed.
Lemma minors_det n (A : 'M[F]_n) : regular_minors A -> \det A != 0.
Proof. move=> /minors_lead /(_ n (leqnn n)). by rewrite /lead -mx_fn. Qed.
Lemma lead_ext m W W' : (forall i j, (i < m)%N -> (j < m)%N -> W i j = W' i j) -> lead m W = lead m W'.
Proof. by move=> H; apply/matrixP => i j; rewrite !mxE H. Qed.

Lemma inv_mat n (A : 'M[F]_n) : (0 < n)%N -> regular_minors A -> inv (mat L A) = Ok (mat L (invmx A)).
Proof.
  move=> Hn Hm. have Hdet := minors_det Hm.
  rewrite !mat_fins /inv (inv_form _ n (elimT ssrnat.ltP Hn) (fins_shape _ _ _ _)).
  have -> : @laplace NX n (ent (fins L n n (fn A))) = Fin (\det A).
  { rewrite (@laplace_ext NX n _ (fun i j => Fin (fn A i j))); first by rewrite laplace_fin // -mx_fn.
    move=> i j /ssrnat.ltP Hi /ssrnat.ltP Hj. by rewrite fins_ent. }
  cbn [neqb Exact ext_eqb nof_Z n0 of_Z]. rewrite (negbTE Hdet).
  set W0 := fun i j => if (j < n)%N then fn A i j else (j - n == i)%N%:R.
  have -> : augmented n (fins L n n (fn A)) = fins L n (n + n) W0.
  { apply: (shape_ext _ _ n (n + n)); [exact: augmented_shape (fins_shape _ _ _ _)|exact: fins_shape|].
    move=> i j /ssrnat.ltP Hi /ssrnat.ltP Hj. rewrite [RHS]fins_ent // /W0.
    rewrite (augmented_ent n _ i j (fins_shape _ _ _ _) (elimT ssrnat.ltP Hi) (elimT ssrnat.ltP Hj)).
    have -> : Nat.ltb j n = (j < n)%N by rewrite /Nat.ltb lebE.
    case: (ltnP j n) => Hj'; first by rewrite fins_ent.
    rewrite eqbE n0E n1E. by case: (_ == _). }
  have [|V [W [E1 E2 D S]]] := @gauss_jordan string "Infinite solutions"%string n n W0 Hn.
  { move=> m Hmn. rewrite (@lead_ext m _ (fn A)); first exact: minors_lead.
    move=> i j Hi Hj. by rewrite /W0 (leq_trans Hj). }
  rewrite E1; cbn [bind]. rewrite E2; cbn [bind]. congr (Ok (Matrix _)). apply: tab2_fins => i j Hi Hj.
  have E3 : (n - 1 - i)%coq_nat = (n.-1 - i)%N by lia.
  have E4 : (n - 1 - j)%coq_nat = (n.-1 - j)%N by lia.
  rewrite E3 E4 !fins_ent; try lia. rewrite n1E (div_fin L); last by apply: D; lia.
  cbn [nmul Exact ext_mul]. congr Fin. rewrite mul1r.
  rewrite (S j (fun i => fn (invmx A) i j)) //; last lia.
  - by rewrite subKn //; lia.
  - move=> r Hr. rewrite /W0 ltnNge leq_addr /= addKn.
    transitivity (\sum_(k < n) A (Ordinal Hr) k * invmx A k (Ordinal Hj)).
    { apply: eq_bigr => k _. rewrite (ltn_ord k) -[r]/(val (Ordinal Hr)) -[j]/(val (Ordinal Hj)) !fn_ord. by []. }
    have := congr1 (fun M : 'M_n => M (Ordinal Hr) (Ordinal Hj)) (mulmxV (_ : A \in unitmx)).
    rewrite !mxE unitmxE unitfE => -> //. by rewrite -(inj_eq val_inj) /= eq_sym.
Qed.
Lemma inv_singular n (A : 'M[F]_n) : (0 < n)%N -> \det A = 0 ->
  inv (mat L A) = Err "Can't calculate inverse of a matrix with determinant 0!"%string.
Proof.
  move=> Hn Hd. rewrite mat_fins /inv (inv_form _ n (elimT ssrnat.ltP Hn) (fins_shape _ _ _ _)).
  have -> : @laplace NX n (ent (fins L n n (fn A))) = Fin (\det A).
  { rewrite (@laplace_ext NX n _ (fun i j => Fin (fn A i j))); first by rewrite laplace_fin // -mx_fn.
    move=> i j /ssrnat.ltP Hi /ssrnat.ltP Hj. by rewrite fins_ent. }
  by rewrite Hd /= eqxx.
Qed.

(** ** Linear systems *)
Lemma fins_row0 {E} n c W : (0 < n)%N -> @row0_len E (@T NX) (fins L n c W) = Ok c.
Proof. by move=> /ssrnat.ltP Hn; exact: row0_len_shape (fins_shape L n c W) Hn. Qed.
Lemma gauss_fin n W0 x : (0 < n)%N -> (forall m, (m <= n)%N -> \det (lead m W0) != 0) -> solves n W0 0 x ->
  gauss_algorithm (fins L n (n + 1) W0) = Ok (vfins L n x).
Proof.
  move=> Hn Hd Hs. have Hle : (n <= n + 1)%coq_nat by lia.
  rewrite /gauss_algorithm (fins_row0 _ _ Hn); cbn [bind]. rewrite (proj1 (fins_shape L n (n + 1) W0)).
  rewrite -[(n + 1)%coq_nat]/(n + 1)%N Nat.eqb_refl; cbn [negb].
  rewrite (eliminate_form _ _ n (n + 1) (fins_shape _ _ _ _) Hle).
  have [V [W [-> E2 D S]]] := @gauss_jordan EvalError InfiniteSolutions n 1 W0 Hn Hd. cbn [bind].
  rewrite (eliminate_form _ _ n (n + 1)) //; last by apply: flip_shape; [lia|exact: fins_shape].
  rewrite E2; cbn [bind]. rewrite (proj1 (fins_shape L n (n + 1) W)).
  have Hsh := fins_shape L n (n + 1) W.
  rewrite (mapM_tab _ (fun i => Fin (x (n.-1 - i)%N))).
  - cbn [bind]. congr Ok. rewrite /vfins. apply: (@nth_ext _ _ _ n0 n0); rewrite rev_length !tab_length // => i Hi.
    rewrite rev_nth tab_length // !tab_nth //; last by move/ssrnat.ltP: Hi; lia.
    congr (Fin (x _)). move/ssrnat.ltP: Hi; lia.
  - move=> i Hi. rewrite (idx_row _ n (n + 1)) //; cbn [bind].
    have Lr : List.length (List.nth i (fins L n (n + 1) W) [::]) = (n + 1)%N by exact: shape_row Hsh Hi.
    rewrite Lr. rewrite !(idx_nth _ _ (@n0 NX)) ?Lr; try (apply/ssrnat.ltP; move/ssrnat.ltP: Hi; lia).
    cbn [bind]. rewrite -![List.nth _ _ _]/(ent (fins L n (n + 1) W) i _).
    have Hi' : (i < n)%N by apply/ssrnat.ltP.
    rewrite !fins_ent; try lia. rewrite (div_fin L); last exact: D.
    rewrite -(S 0%N x) //. congr (Ok (Fin (W _ _ / _))). lia.
Qed.

Lemma foldM_stop {E S} (P : nat -> S -> Prop) (f : S -> nat -> res E S) e a len jst s :
  P a s -> (a <= jst < a + len)%N ->
  (forall j s, (a <= j <= jst)%N -> P j s -> f s j = Err e \/ ((j < jst)%N /\ exists s', f s j = Ok s' /\ P j.+1 s')) ->
  foldM f (List.seq a len) s = Err e.
Proof.
  elim: len a s => [|len IH] a s Ha Hj H; first lia. cbn [List.seq foldM].
  case: (H a s _ Ha) => [|->//|[Hlt [s' [-> Hs']]]]; first lia.
  cbn [bind]. apply: (IH a.+1 s' Hs'); first lia. move=> j s1 Hj1. apply: H. lia.
Qed.
Lemma foldM_or_stop {E S} (P : nat -> S -> Prop) (f : S -> nat -> res E S) e a len s :
  P a s -> (forall j s, (a <= j < a + len)%N -> P j s -> f s j = Err e \/ exists s', f s j = Ok s' /\ P j.+1 s') ->
  foldM f (List.seq a len) s = Err e \/ exists s', foldM f (List.seq a len) s = Ok s' /\ P (a + len)%N s'.
Proof.
  elim: len a s => [|len IH] a s Ha H; first by right; exists s; rewrite addn0.
  cbn [List.seq foldM]. case: (H a s _ Ha) => [|->|[s' [-> Hs']]]; [lia|by left|].
  cbn [bind]. rewrite addnS -addSn. apply: IH => // j s1 Hj1. apply: H. lia.
Qed.
Lemma dependent_row_zero n c W0 W j a : lrep n c W0 W -> (j < n)%N -> (j <= c)%N -> \det (lead j W0) != 0 ->
  (forall k, (k < c)%N -> W0 j k = \sum_(t < j) a t * W0 t k) -> (forall k, (k < j)%N -> W j k = 0) ->
  forall k, (k < c)%N -> W j k = 0.
Proof.
  move=> [U [U1 U2] HU] Hj Hjc Hd Ha Hz. pose d := \row_(t < j) (U j t + a t).
  have Hw k : (k < c)%N -> W j k = \sum_(t < j) d 0 t * W0 t k.
  { move=> Hk. rewrite HU // (bigID (fun t : 'I_n => (t < j)%N)) /= (big_ord_narrow (ltnW Hj)) /=.
    rewrite (bigD1 (Ordinal Hj)) ?ltnn //= U1 mul1r Ha // [X in _ + (_ + X)]big1 ?addr0.
    - rewrite -big_split /=. apply: eq_bigr => t _. by rewrite mxE mulrDl.
    - move=> t /andP [H1 H2]. rewrite U2 ?mul0r //. move: H2; rewrite -(inj_eq val_inj) /=. lia. }
  have Hd0 : d *m lead j W0 = 0.
  { apply/rowP => k. rewrite [RHS]mxE -(Hz k (ltn_ord k)) (Hw _ (leq_trans (ltn_ord k) Hjc)) mxE.
    by apply: eq_bigr => t _; rewrite [in LHS]mxE [lead j W0 t k]mxE mxE. }
  have D0 : d = 0 by rewrite -[d](mulmxK (_ : lead j W0 \in unitmx)) ?Hd0 ?mul0mx // unitmxE unitfE.
  by move=> k Hk; rewrite Hw // big1 // => t _; rewrite D0 mxE mul0r.
Qed.
Lemma elim_dependent {E} (zl : E) n c W0 j a : (n <= c)%N -> (0 < j < n)%N ->
  (forall m, (m <= j)%N -> \det (lead m W0) != 0) ->
  (forall k, (k < c)%N -> W0 j k = \sum_(t < j) a t * W0 t k) ->
  elim zl n c (fins L n c W0) = Err zl.
Proof.
  move=> Hc /andP [Hj0 Hj] Hd Ha. rewrite /elim -[(n - 1)%coq_nat]/(n - 1)%N.
  apply: (@foldM_stop E _ (fun i => @st F L n c W0 i i.+1) (fun m i => elim_col zl n c i m) zl 0 (n - 1) j.-1).
  - exists W0; split=> //; first exact: lrep_refl. move=> r k Hk Hr. rewrite ltn0 /=. move=> /andP [/eqP Ek]. lia.
  - lia.
  - move=> i s /andP [_ Hi] Hs. case: (ltnP i j.-1) => Hij; [|left].
    + have Hin : (i < n)%N by lia. have Hic : (i < c)%N by lia.
      suff : elim_col zl n c i s = Err zl \/ exists s', elim_col zl n c i s = Ok s' /\ st n c W0 i n s'.
      { case=> [|[s' [E1 [W [H1 H2 H3]]]]]; [by left|right]. split=> //. exists s'; split=> //. exists W; split=> // r k Hk Hr Hd'.
        apply: H3 => //. lia. }
      rewrite /elim_col. 
      have Hstep jj s1 : (i < jj < n)%N -> st n c W0 i jj s1 ->
        (if zero_line c i jj s1 then Err zl else Ok (step n c i jj s1)) = Err zl \/
        exists s2, (if zero_line c i jj s1 then Err zl else Ok (step n c i jj s1)) = Ok s2 /\ st n c W0 i jj.+1 s2.
      { move=> /andP [Hj1 Hj2] [W [-> H2 H3]]. have Hp : W i i != 0 by apply: (pivot H2 H3) => //; apply: Hd; lia.
        case: ifP => _; [by left|right]. rewrite step_fins //. eexists; split; first by [].
        exists (sstep i jj W); split=> //; [|exact: upto_step].
        apply: lrep_step => // k Hk. apply: H3 => //. by rewrite Hk. }
      have Hlen : n = (i.+1 + (n - i.+1))%N by lia.
      have := @foldM_or_stop E _ (fun jj => @st F L n c W0 i jj) (fun m jj => if zero_line c i jj m then Err zl else Ok (step n c i jj m))
        zl i.+1 (n - i.+1)%N s Hs. rewrite -Hlen. apply=> jj s1 Hjj. exact: Hstep.
    + have -> : i = j.-1 by lia. have Es : i = j.-1 by lia. subst i. move: Hs => [W [-> H2 H3]].
      rewrite /elim_col. have -> : j.-1.+1 = j by lia.
      have -> : (n - j)%coq_nat = (n - j).-1.+1 by lia. cbn [List.seq foldM].
      have Hin : (j.-1 < n)%N by lia. have Hic : (j.-1 < c)%N by lia.
      have Hp : W j.-1 j.-1 != 0 by apply: (pivot H2 H3) => //; apply: Hd; lia.
      rewrite (zero_line_fin _ Hin Hj Hic Hp).
      have R : lrep n c W0 (sstep j.-1 j W).
      { apply: lrep_step => //; first lia. move=> k Hk. apply: H3 => //. by rewrite Hk. }
      have U : upto n j.-1 j.+1 (sstep j.-1 j W) by apply: upto_step => //; [rewrite -{2}(prednK Hj0)|lia].
      have -> : all (fun k => sstep j.-1 j W j k == 0) (iota j.-1 (c - j.-1)) => //.
      apply/allP => k. rewrite mem_iota => /andP [_ Hk]. apply/eqP.
      apply: (dependent_row_zero R Hj _ (Hd j (leqnn j)) Ha); [lia| |lia].
      move=> t Ht. apply: U => //. lia.
Qed.
Lemma gauss_dependent n W0 j a : (0 < j < n)%N ->
  (forall m, (m <= j)%N -> \det (lead m W0) != 0) ->
  (forall k, (k < n + 1)%N -> W0 j k = \sum_(t < j) a t * W0 t k) ->
  gauss_algorithm (fins L n (n + 1) W0) = Err InfiniteSolutions.
Proof.
  move=> Hj Hd Ha. have Hn : (0 < n)%N by lia. have Hle : (n <= n + 1)%coq_nat by lia.
  rewrite /gauss_algorithm (fins_row0 _ _ Hn); cbn [bind]. rewrite (proj1 (fins_shape L n (n + 1) W0)).
  rewrite -[(n + 1)%coq_nat]/(n + 1)%N Nat.eqb_refl; cbn [negb].
  rewrite (eliminate_form _ _ n (n + 1) (fins_shape _ _ _ _) Hle).
  by rewrite (elim_dependent _ (leq_addr 1 n) Hj Hd Ha).
Qed.
End Gauss.
