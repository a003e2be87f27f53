(** * ExactElim: Gaussian elimination in exact arithmetic. *)
From Coq Require Import ZArith Lia List.
Set Warnings "-notation-overridden,-ambiguous-paths".
From mathcomp Require Import all_ssreflect all_algebra.
From Verif Require Import Base BaseFacts Num Types Maths GrammarSpec MathsForms Exact ExactSpec ExactLinear.
Import GRing.Theory Order.Theory mathcomp.algebra.ssrnum.Num.Theory.
Set Implicit Arguments.
Unset Strict Implicit.
Unset Printing Implicit Defensive.
Local Open Scope ring_scope.

Lemma foldM_iota {E S} (P : nat -> S -> Prop) (f : S -> nat -> res E S) a len s :
  P a s -> (forall j s, (a <= j < a + len)%N -> P j s -> exists s', f s j = Ok s' /\ P j.+1 s') ->
  exists s', foldM f (List.seq a len) s = Ok s' /\ P (a + len)%N s'.
Proof.
  elim: len a s => [|len IH] a s Ha H; first by exists s; rewrite addn0.
  have [|s1 [E1 H1]] := H a s _ Ha; first by rewrite leqnn -[X in (X < _)%N]addn0 ltn_add2l.
  have [|s2 [E2 H2]] := IH a.+1 s1 H1; last by exists s2; rewrite addnS -addSn /= E1.
  move=> j s' /andP [H2 H3]; apply: H. by rewrite ltnW //= addnS -addSn.
Qed.
Lemma eqbE (a b : nat) : Nat.eqb a b = (a == b).
Proof. by case: Nat.eqb_spec => [->|/eqP/negbTE ->]; rewrite ?eqxx. Qed.
Lemma lebE (a b : nat) : Nat.leb a b = (a <= b)%N.
Proof. by case: Nat.leb_spec => [/ssrnat.leP ->|/ssrnat.ltP]; rewrite // ltnNge => /negbTE ->. Qed.

Section Elim.
Variables (F : archiFieldType) (L : lib F).
Notation NX := (Exact L).
Implicit Types W : nat -> nat -> F.

Definition sstep i j W (r k : nat) : F :=
  if (r == j) && (i <= k)%N then W j k - W i k * (W j i / W i i) else W r k.

Lemma step_fin n c i j W r k : (i < n)%N -> (j < n)%N -> (r < n)%N -> (k < c)%N -> (i < c)%N -> W i i != 0 ->
  step_ent (fins L n c W) i j r k = Fin (sstep i j W r k).
Proof.
  move=> Hi Hj Hr Hk Hc Hp. rewrite /step_ent /sstep eqbE lebE. case: ifP => _; last by rewrite fins_ent.
  rewrite !fins_ent //. case: (altP (W j i =P 0)) => [E|E].
  - rewrite E mul0r mulr0. cbn [ndiv Exact ext_div]. rewrite eqxx /signed_inf (negbTE Hp). by case: ifP.
  - rewrite (div_fin L) // (div_fin L) ?mulf_neq0 ?invr_eq0 //. cbn. congr Fin. by rewrite invf_div.
Qed.
Lemma step_fins n c i j W : (i < n)%N -> (j < n)%N -> (i < c)%N -> W i i != 0 ->
  step n c i j (fins L n c W) = fins L n c (sstep i j W).
Proof. by move=> Hi Hj Hc Hp; apply: tab2_fins => r k Hr Hk; exact: step_fin. Qed.
Lemma zero_line_fin n c i j W : (i < n)%N -> (j < n)%N -> (i < c)%N -> W i i != 0 ->
  zero_line c i j (fins L n c W) = all (fun k => sstep i j W j k == 0) (iota i (c - i)).
Proof.
  move=> Hi Hj Hc Hp. rewrite /zero_line seq_iota -[(c - i)%coq_nat]/(c - i)%N.
  have H l : {subset l <= iota i (c - i)} ->
    forallb (fun k => neqb (step_ent (fins L n c W) i j j k) (@n0 NX)) l = all (fun k => sstep i j W j k == 0) l.
  { elim: l => //= x l IH Hl. have Hx : x \in iota i (c - i) by apply: Hl; rewrite inE eqxx.
    rewrite IH; last by move=> y Hy; apply: Hl; rewrite inE Hy orbT.
    move: Hx. rewrite mem_iota subnKC; last exact: ltnW. move=> /andP [_ Hx].
    by rewrite (step_fin Hi Hj Hj Hx Hc Hp). }
  exact: H.
Qed.

(** [W] is [W0] multiplied from the left by a lower triangular matrix with
    ones on the diagonal. *)
Definition unit_lower (U : nat -> nat -> F) : Prop := (forall r, U r r = 1) /\ (forall r t, (r < t)%N -> U r t = 0).
Definition lrep n c W0 W : Prop := exists2 U, unit_lower U &
  forall r k, (r < n)%N -> (k < c)%N -> W r k = \sum_(t < n) U r t * W0 t k.
(** Zero below the diagonal in columns before [i], and in column [i] for rows before [j]. *)
Definition upto n i j W : Prop :=
  forall r k, (k < r)%N -> (r < n)%N -> (k < i)%N || (k == i) && (r < j)%N -> W r k = 0.
Definition lead m W : 'M[F]_m := \matrix_(i < m, j < m) W i j.

Lemma lrep_refl n c W : lrep n c W W.
Proof.
  exists (fun r t => (r == t)%:R); first split=> [r|r t H]; first by rewrite eqxx.
  - by rewrite (ltn_eqF H).
  - move=> r k Hr Hk. rewrite (bigD1 (Ordinal Hr)) //= eqxx mul1r big1 ?addr0 // => t Ht.
    case: eqP => E; last by rewrite mul0r.
    by move: Ht; rewrite -(inj_eq val_inj) /= E eqxx.
Qed.
Lemma lrep_step n c W0 W i j : lrep n c W0 W -> (i < j)%N -> (j < n)%N -> (forall k, (k < i)%N -> W i k = 0) ->
  lrep n c W0 (sstep i j W).
Proof.
  move=> [U [U1 U2] HU] Hij Hj Hz. have Hi : (i < n)%N := ltn_trans Hij Hj.
  exists (fun r t => if r == j then U j t - U i t * (W j i / W i i) else U r t).
  - split=> [r|r t Ht]; case: eqP => [E|_]; rewrite ?U1 ?(U2 _ _ Ht) //; subst r.
    + by rewrite (U2 _ _ Hij) mul0r subr0.
    + by rewrite (U2 _ _ Ht) (U2 _ _ (ltn_trans Hij Ht)) mul0r subr0.
  - move=> r k Hr Hk. rewrite /sstep. case: eqP => [E|_] /=; last exact: HU. subst r.
    have Hw : W j k - W i k * (W j i / W i i) = \sum_(t < n) (U j t - U i t * (W j i / W i i)) * W0 t k.
    { rewrite (HU j k) // {1}(HU i k) // mulr_suml -sumrB. apply: eq_bigr => t _. by rewrite mulrBl mulrAC. }
    case: leqP => Hki; first exact: Hw. by rewrite -Hw (Hz _ Hki) mul0r subr0.
Qed.
Lemma lrep_minor n c W0 W m : lrep n c W0 W -> (m <= n)%N -> (m <= c)%N -> \det (lead m W) = \det (lead m W0).
Proof.
  move=> [U [U1 U2] HU] Hn Hc.
  have -> : lead m W = lead m U *m lead m W0.
  { apply/matrixP => r k. rewrite !mxE HU; try exact: leq_trans (ltn_ord _) _.
    rewrite (bigID (fun t : 'I_n => (t < m)%N)) /= [X in _ + X]big1 ?addr0.
    - rewrite (big_ord_narrow Hn). by apply: eq_bigr => t _; rewrite !mxE.
    - move=> t; rewrite -leqNgt => Ht. by rewrite U2 ?mul0r // (leq_trans (ltn_ord r) Ht). }
  rewrite det_mulmx det_trig; last by apply/is_trig_mxP => r t Hrt; rewrite mxE U2.
  by rewrite big1 ?mul1r // => r _; rewrite mxE U1.
Qed.
Lemma upper_det n i j W m : upto n i j W -> (m <= n)%N -> (m <= i.+1)%N -> \det (lead m W) = \prod_(r < m) W r r.
Proof.
  move=> H Hn Hm. rewrite -det_tr det_trig; first by apply: eq_bigr => r _; rewrite !mxE.
  apply/is_trig_mxP => r t Hrt. rewrite !mxE. apply: H => //; first exact: leq_trans (ltn_ord t) Hn.
  by rewrite (leq_trans Hrt _) // -ltnS (leq_trans (ltn_ord t)).
Qed.
Lemma zero_row_det m W j : (j < m)%N -> (forall k, (k < m)%N -> W j k = 0) -> \det (lead m W) = 0.
Proof.
  move=> Hj H. rewrite (expand_det_row _ (Ordinal Hj)). apply: big1 => k _. by rewrite mxE H ?mul0r.
Qed.
Lemma pivot n c W0 W i j : lrep n c W0 W -> upto n i j W -> (i < n)%N -> (i < c)%N -> \det (lead i.+1 W0) != 0 -> W i i != 0.
Proof.
  move=> Hr Hu Hi Hc. rewrite -(lrep_minor Hr) // (upper_det Hu) //. by rewrite big_ord_recr mulf_eq0 negb_or => /andP [].
Qed.
Lemma upto_step n i j W : upto n i j W -> (i < j)%N -> (j < n)%N -> W i i != 0 -> upto n i j.+1 (sstep i j W).
Proof.
  move=> H Hij Hj Hp r k Hk Hr Hd. rewrite /sstep. case: (altP (r =P j)) => [E|E] /=.
  - subst r. case/orP: Hd => [Hd|/andP [/eqP Hd _]].
    + rewrite leqNgt Hd /=. apply: H => //. by rewrite Hd.
    + subst k. by rewrite leqnn mulrCA mulfV // mulr1 subrr.
  - apply: H => //. case/orP: Hd => [->//|/andP [-> Hd]].
    have -> : (r < j)%N by rewrite ltn_neqAle E -ltnS Hd. by rewrite orbT.
Qed.
Lemma no_zero_line n c W0 W i j : lrep n c W0 (sstep i j W) -> upto n i j.+1 (sstep i j W) -> (i < j)%N -> (j < n)%N -> (n <= c)%N ->
  \det (lead n W0) != 0 -> all (fun k => sstep i j W j k == 0) (iota i (c - i)) = false.
Proof.
  move=> Hr Hu Hij Hj Hc Hd. apply/negP => /allP Hz. case/negP: Hd. rewrite -(lrep_minor Hr) //. apply/eqP.
  apply: (zero_row_det Hj) => k Hk. case: (ltnP k i) => Hki.
  - by apply: Hu => //; rewrite ?Hki // (ltn_trans Hki).
  - apply/eqP/Hz. rewrite mem_iota Hki subnKC; first exact: leq_trans Hk Hc.
    exact: ltnW (leq_trans (ltn_trans Hij Hj) Hc).
Qed.

Definition st n c W0 i j (m : list (list (@T NX))) : Prop :=
  exists W, [/\ m = fins L n c W, lrep n c W0 W & upto n i j W].
Lemma elim_col_fin {E} (zl : E) n c W0 i m : (n <= c)%N -> (i.+1 < n)%N -> st n c W0 i i.+1 m ->
  (forall k, (k <= n)%N -> \det (lead k W0) != 0) -> exists m', elim_col zl n c i m = Ok m' /\ st n c W0 i.+1 i.+2 m'.
Proof.
  move=> Hc Hi Hs Hd. rewrite /elim_col.
  have [|m' [E' [W [H1 H2 H3]]]] := @foldM_iota E _ (fun j => st n c W0 i j) (fun m j => if zero_line c i j m then Err zl else Ok (step n c i j m))
     i.+1 (n - i.+1) m Hs; last first.
  - exists m'. split; first exact: E'. exists W; split=> // r k Hk Hr. rewrite subnKC in H3; last exact: ltnW.
    case/orP => [|/andP [/eqP Ek Hr2]]; last by move: Hk; rewrite Ek => /(leq_trans Hr2); rewrite ltnn.
    rewrite ltnS leq_eqVlt => /orP [/eqP E1|Hki]; apply: H3 => //; last by rewrite Hki.
    by rewrite E1 eqxx Hr orbT.
  - move=> j s /andP [Hj1]. rewrite subnKC; last exact: ltnW. move=> Hj2 [W [-> H2 H3]].
    have Hin : (i < n)%N := ltnW Hi. have Hic : (i < c)%N := leq_trans Hin Hc.
    have Hp : W i i != 0 by apply: (pivot H2 H3) => //; exact: Hd.
    have H4 := lrep_step H2 Hj1 Hj2 (fun k Hk => H3 i k Hk Hin (introT orP (or_introl Hk))).
    have H5 := upto_step H3 Hj1 Hj2 Hp.
    rewrite (zero_line_fin Hin Hj2 Hic Hp) (no_zero_line H4 H5 Hj1 Hj2 Hc (Hd n (leqnn n))) step_fins //.
    eexists; split; first by []. by exists (sstep i j W).
Qed.
Lemma elim_fin {E} (zl : E) n c W0 : (0 < n)%N -> (n <= c)%N -> (forall k, (k <= n)%N -> \det (lead k W0) != 0) ->
  exists W, [/\ elim zl n c (fins L n c W0) = Ok (fins L n c W), lrep n c W0 W &
    (forall r k, (k < r)%N -> (r < n)%N -> W r k = 0)].
Proof.
  move=> Hn Hc Hd. rewrite /elim.
  have [||m' [E' [W [H1 H2 H3]]]] := @foldM_iota E _ (fun i => st n c W0 i i.+1) (fun m i => elim_col zl n c i m) 0 (n - 1) (fins L n c W0).
  - exists W0; split=> //; first exact: lrep_refl. move=> r k Hk Hr. rewrite ltn0 /=. move=> /andP [/eqP Ek]. subst k.
    by case: r Hk Hr.
  - move=> i s /andP [_ Hi] Hs. rewrite add0n in Hi. apply: elim_col_fin => //. by move: Hi; rewrite ltn_subRL add1n.
  - exists W; split=> //; first by rewrite -H1; exact: E'.
    move=> r k Hk Hr. apply: H3 => //. by rewrite add0n subn1 (leq_trans Hk) // -ltnS prednK.
Qed.
End Elim.
