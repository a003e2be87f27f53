(** * ExactRound: integers, rounding, powers and cross products in exact
    arithmetic. *)
From Coq Require Import ZArith Lia List.
Set Warnings "-notation-overridden,-ambiguous-paths".
From mathcomp Require Import all_ssreflect all_algebra.
From Verif Require Import Base BaseFacts Num Types Maths GrammarSpec MathsForms Exact ExactSpec ExactLinear.
Import GRing.Theory Order.Theory mathcomp.algebra.ssrnum.Num.Theory.
Set Implicit Arguments.
Unset Strict Implicit.
Unset Printing Implicit Defensive.
Local Open Scope ring_scope.

Section Round.
Variable F : archiFieldType.
Implicit Types x y : F.

Lemma nat_partP x : 0 <= x -> (nat_part x)%:R <= x < (nat_part x).+1%:R.
Proof.
  move=> Hx. rewrite /nat_part. set b := ssrnum.Num.bound x. set p := (fun n => _).
  have Hb : x < b%:R by exact: archi_boundP.
  have Hp : has p (iota 0 b).
  { case Eb : b Hb => [|k] Hb; first by move: Hb; rewrite mulr0n ltNge Hx.
    apply/hasP; exists k => //. by rewrite mem_iota /= add0n. }
  have Hf : (find p (iota 0 b) < b)%N by move: Hp; rewrite has_find size_iota.
  apply/andP; split; last by have := nth_find 0%N Hp; rewrite nth_iota // add0n.
  case Ek : (find p (iota 0 b)) => [|k]; first by [].
  have Hk : (k < find p (iota 0 b))%N by rewrite Ek.
  have := before_find 0%N Hk. rewrite nth_iota; last exact: ltn_trans Hk Hf. by rewrite add0n /p => /negbT; rewrite -leNgt.
Qed.
Lemma nat_part_unique x n : n%:R <= x < n.+1%:R -> nat_part x = n.
Proof.
  move=> /andP [H1 H2]. have Hx : 0 <= x by apply: le_trans H1; rewrite ler0n.
  have /andP [H3 H4] := nat_partP Hx. apply/eqP; rewrite eqn_leq.
  have A : (nat_part x < n.+1)%N by rewrite -(ltr_nat F); exact: le_lt_trans H3 H2.
  have B : (n < (nat_part x).+1)%N by rewrite -(ltr_nat F); exact: le_lt_trans H1 H4.
  by rewrite -ltnS A -ltnS B.
Qed.
Lemma half_pos : 0 < 2%:R^-1 :> F. Proof. by rewrite invr_gt0 ltr0n. Qed.
Lemma half_lt1 : 2%:R^-1 < 1 :> F. Proof. by rewrite invf_lt1 ?ltr0n // (ltr_nat F 1 2). Qed.
Lemma half_half : 2%:R^-1 + 2%:R^-1 = 1 :> F.
Proof. by rewrite [RHS]splitr div1r. Qed.
Lemma natS n : n.+1%:R = n%:R + 1 :> F.
Proof. by rewrite mulrSr. Qed.
Lemma of_Z_nat n : of_Z F (Z.of_nat n) = n%:R.
Proof. by case: n => //= n; rewrite SuccNat2Pos.id_succ. Qed.
Lemma of_Z_opp z : of_Z F (Z.opp z) = - of_Z F z.
Proof. by case: z => //= [|p]; rewrite ?oppr0 ?opprK. Qed.
Lemma Z_cases z : (exists n, z = Z.of_nat n) \/ (exists n, z = Z.opp (Z.of_nat n.+1)).
Proof.
  case: z => [|p|p]; [by left; exists 0%N|by left; exists (Pos.to_nat p); rewrite positive_nat_Z|right].
  have [n E] := Pos2Nat.is_succ p. exists n. by rewrite -[n.+1]E positive_nat_Z.
Qed.

Lemma trunc_Z_of_Z z : trunc_Z (of_Z F z) = z.
Proof.
  case: (Z_cases z) => [[n ->]|[n ->]]; rewrite /trunc_Z.
  - by rewrite of_Z_nat ler0n (nat_part_unique (n := n)) // lexx ltr_nat /= ltnSn.
  - by rewrite of_Z_opp of_Z_nat oppr_ge0 opprK lern0 /= (nat_part_unique (n := n.+1)) // lexx ltr_nat /= ltnSn.
Qed.
Lemma round_Z_of_Z z : round_Z (of_Z F z) = z.
Proof.
  have H n : ((n%:R : F) <= n%:R + 2%:R^-1) && ((n%:R + 2%:R^-1 : F) < n.+1%:R).
  { by rewrite (natS n) ler_addl ltr_add2l half_lt1 ltW // half_pos. }
  case: (Z_cases z) => [[n ->]|[n ->]]; rewrite /round_Z.
  - by rewrite of_Z_nat ler0n (nat_part_unique (H n)).
  - by rewrite of_Z_opp of_Z_nat oppr_ge0 opprK lern0 /= addrC (nat_part_unique (H n.+1)).
Qed.
(** The error of rounding is at most 1/2. *)
Lemma round_Z_near x : `|x - of_Z F (round_Z x)| <= 2%:R^-1.
Proof.
  have H y : 0 <= y -> `|y - (nat_part (y + 2%:R^-1))%:R| <= 2%:R^-1.
  { move=> Hy. have /nat_partP /andP [H1 H2] : 0 <= y + 2%:R^-1 by rewrite addr_ge0 // ltW // half_pos.
    rewrite ler_norml. apply/andP; split.
    - by rewrite ler_subr_addr addrC ler_subl_addr.
    - by rewrite ler_subl_addr ltW // -(ltr_add2r 2%:R^-1) (lt_le_trans H2) // (natS (nat_part _)) addrAC half_half addrC. }
  rewrite /round_Z. case: (lerP 0 x) => Hx; first by rewrite of_Z_nat H.
  rewrite of_Z_opp of_Z_nat opprK -normrN opprD [2%:R^-1 - x]addrC. apply: H. by rewrite oppr_ge0 ltW.
Qed.
End Round.

Section Round2.
Variable F : archiFieldType.
Implicit Types x y : F.
Lemma of_Z_add a b : of_Z F (Z.add a b) = of_Z F a + of_Z F b.
Proof.
  have H m n : of_Z F (Z.sub (Z.of_nat m) (Z.of_nat n)) = m%:R - n%:R.
  { case/orP: (leq_total n m) => /subnK <-; rewrite natrD.
    - by rewrite -plusE Nat2Z.inj_add Z.add_simpl_r of_Z_nat addrK.
    - by rewrite -plusE Nat2Z.inj_add (ltac:(move=> a' d; lia) : forall a' d, Z.sub a' (Z.add d a') = Z.opp d) of_Z_opp of_Z_nat opprD addrC addrNK. }
  case: (Z_cases a) => [[m ->]|[m ->]]; case: (Z_cases b) => [[n ->]|[n ->]].
  - by rewrite -Nat2Z.inj_add !of_Z_nat plusE natrD.
  - by rewrite Z.add_opp_r H of_Z_opp !of_Z_nat.
  - by rewrite Z.add_opp_l H of_Z_opp !of_Z_nat addrC.
  - by rewrite -Z.opp_add_distr -Nat2Z.inj_add !of_Z_opp !of_Z_nat plusE natrD opprD.
Qed.
(** Distinct integers are at least 1 apart. *)
Lemma of_Z_apart a b : a <> b -> 1 <= `|of_Z F a - of_Z F b|.
Proof.
  move=> H. rewrite -of_Z_opp -of_Z_add. have : Z.add a (Z.opp b) <> Z0 by lia.
  case: (Z.add _ _) => //= p _; rewrite ?normrN normr_nat (ler_nat F 1); apply/ssrnat.leP; exact: Pos2Nat.is_pos.
Qed.
(** No integer is nearer than the rounded one. *)
Lemma round_Z_nearest x k : `|x - of_Z F (round_Z x)| <= `|x - of_Z F k|.
Proof.
  case: (Z.eq_dec k (round_Z x)) => [->|H]; first by [].
  apply: le_trans (round_Z_near x) _. have := of_Z_apart H.
  have -> : of_Z F k - of_Z F (round_Z x) = (x - of_Z F (round_Z x)) - (x - of_Z F k) by rewrite opprB [RHS]addrC addrA subrK.
  move=> /le_trans /(_ (ler_norm_sub _ _)) E. rewrite -(ler_add2l (2%:R^-1)) half_half.
  apply: le_trans E _. by rewrite ler_add2r round_Z_near.
Qed.
(** Exact halves are rounded away from zero. *)
Lemma round_Z_half x k : `|x - of_Z F k| = 2%:R^-1 -> `|x| <= `|of_Z F (round_Z x)|.
Proof.
  have H y : 0 <= y -> forall k, `|y - of_Z F k| = 2%:R^-1 -> y <= (nat_part (y + 2%:R^-1))%:R.
  { move=> Hy k'. have [E|E] := boolP (0 <= y - of_Z F k'); [rewrite (ger0_norm E)|rewrite ltr0_norm ?ltNge //] => Ek.
    - have Ey : y + 2%:R^-1 = of_Z F (Z.add k' 1) by rewrite of_Z_add -[y](subrK (of_Z F k')) Ek addrAC half_half addrC.
      move: (ltac:(exact: addr_ge0 Hy (ltW (half_pos F))) : 0 <= y + 2%:R^-1). rewrite Ey.
      case: (Z_cases (Z.add k' 1)) => [[n En]|[n ->]]; last by rewrite of_Z_opp of_Z_nat oppr_ge0 lern0.
      move=> _. by rewrite En of_Z_nat (@nat_part_unique _ _ n) ?lexx ?ltr_nat ?ltnSn // -of_Z_nat -En -Ey ler_addl ltW // half_pos.
    - have Ey : y + 2%:R^-1 = of_Z F k' by rewrite -Ek opprB addrC addrNK.
      move: (ltac:(exact: addr_ge0 Hy (ltW (half_pos F))) : 0 <= y + 2%:R^-1). rewrite Ey.
      case: (Z_cases k') => [[n En]|[n ->]]; last by rewrite of_Z_opp of_Z_nat oppr_ge0 lern0.
      move=> _. by rewrite En of_Z_nat (@nat_part_unique _ _ n) ?lexx ?ltr_nat ?ltnSn // -of_Z_nat -En -Ey ler_addl ltW // half_pos. }
  rewrite /round_Z. case: (lerP 0 x) => Hx Hk.
  - rewrite of_Z_nat normr_nat (ger0_norm Hx). exact: H Hk.
  - rewrite of_Z_opp of_Z_nat normrN normr_nat (ltr0_norm Hx) addrC. apply: (H _ _ (Z.opp k)); first by rewrite oppr_ge0 ltW.
    by rewrite of_Z_opp -opprD normrN.
Qed.
End Round2.

Section Functions.
Variables (F : archiFieldType) (L : lib F).
Notation NX2 := (Exact L).
Implicit Types x y : F.

Lemma ten_neq0 : 10%:R != 0 :> F. Proof. by rewrite pnatr_eq0. Qed.
Lemma pow10_nat p : @pow10 NX2 (Z.of_nat p) = Fin (10%:R ^+ p).
Proof. exact: (npowi_fin L). Qed.
Lemma pow10_neg p : @pow10 NX2 (Z.opp (Z.of_nat p)) = Fin (10%:R ^- p).
Proof. exact: (npowi_fin_neg L p ten_neq0). Qed.
Lemma round_num_fin p x : @round_num NX2 (Z.of_nat p) (Fin x) = Fin (of_Z F (round_Z (x * 10%:R ^+ p)) / 10%:R ^+ p).
Proof. by rewrite /round_num pow10_nat -[RHS](div_fin L) // expf_neq0 // ten_neq0. Qed.

(** ** Matrix powers *)
Lemma mat_pow_fin n (A : 'M[F]_n.+1) p i j : (i < n.+1)%N -> (j < n.+1)%N ->
  @mat_pow NX2 n.+1 (ent (fins L n.+1 n.+1 (fn A))) p i j = Fin (fn (A ^+ p) i j).
Proof.
  move=> Hi. elim: p j => [|p IH] j Hj.
  - rewrite expr0 -[i]/(val (Ordinal Hi)) -[j]/(val (Ordinal Hj)) fn_ord mxE. cbn [mat_pow].
    rewrite n0E n1E. by case: Nat.eqb_spec => [E|E]; [have -> : Ordinal Hi == Ordinal Hj by apply/eqP/val_inj|
      have /negbTE -> : Ordinal Hi != Ordinal Hj by apply/eqP => -[]].
  - rewrite -[LHS]/(@mat_mul NX2 n.+1 (mat_pow n.+1 (ent (fins L n.+1 n.+1 (fn A))) p) (ent (fins L n.+1 n.+1 (fn A))) i j) /mat_mul.
    rewrite (@nsum_fin_ext _ L _ (fun k => fn (A ^+ p) i k * fn A k j)).
    + congr Fin. rewrite exprSr -[i]/(val (Ordinal Hi)) -[j]/(val (Ordinal Hj)) fn_ord mxE.
      by apply: eq_bigr => k _; rewrite !fn_ord.
    + by move=> k Hk; rewrite IH // fins_ent.
Qed.
Lemma pow_mat_gen n (A : 'M[F]_n.+1) (b : @T NX2) : neqb (nround b) b = true ->
  pow (mat L A) (Scalar b) = Ok (mat L (A ^+ Z.to_nat (nto_i32 b))).
Proof.
  move=> Hb. rewrite !mat_fins /pow (@mspow_form NX2 _ n.+1 b (Nat.lt_0_succ n) (fins_shape _ _ _ _) Hb).
  congr (Ok (Matrix _)). apply: tab2_fins => i j Hi Hj. exact: mat_pow_fin.
Qed.
Lemma round_int z : neqb (nround (Fin (of_Z F z) : @T NX2)) (Fin (of_Z F z)) = true.
Proof. by rewrite /= round_Z_of_Z eqxx. Qed.
Lemma round_nonint x : (forall z, x != of_Z F z) -> neqb (nround (Fin x : @T NX2)) (Fin x) = false.
Proof. move=> H /=. by rewrite eq_sym (negbTE (H _)). Qed.
Lemma to_i32_int z : @nto_i32 NX2 (Fin (of_Z F z)) = clamp (Z.opp (Z.pow 2 31)) (Z.pred (Z.pow 2 31)) z.
Proof. by rewrite /= /ext_to trunc_Z_of_Z. Qed.
End Functions.
