(** * ExactPivot: what elimination without row exchanges does when it meets a
    zero pivot (exact arithmetic). *)
From Coq Require Import ZArith Lia List String.
Set Warnings "-notation-overridden,-ambiguous-paths".
From mathcomp Require Import all_ssreflect all_algebra zify.
From Verif Require Import Base BaseFacts Num Types Maths Eval GrammarSpec MathsForms Exact ExactSpec ExactLinear ExactElim ExactGauss.
Import GRing.Theory Order.Theory mathcomp.algebra.ssrnum.Num.Theory.
Set Implicit Arguments.
Unset Strict Implicit.
Unset Printing Implicit Defensive.
Local Open Scope ring_scope.

Lemma foldM_or_stop_d {E S} (D : Prop) (P : nat -> S -> Prop) (f : S -> nat -> res E S) e a len s :
  P a s -> (forall j s, (a <= j < a + len)%N -> P j s -> (D /\ f s j = Err e) \/ exists s', f s j = Ok s' /\ P j.+1 s') ->
  (D /\ foldM f (List.seq a len) s = Err e) \/ exists s', foldM f (List.seq a len) s = Ok s' /\ P (a + len)%N s'.
Proof.
  elim: len a s => [|len IH] a s Ha H; first by right; exists s; rewrite addn0.
  have [|[HD E1]|[s1 [E1 H1]]] := H a s _ Ha; first by rewrite leqnn -[X in (X < _)%N]addn0 ltn_add2l.
  - by left; split=> //=; rewrite E1.
  - have [|H2|[s2 [E2 H2]]] := IH a.+1 s1 H1.
    + move=> j s' /andP [H2 H3]; apply: H. by rewrite ltnW //= addnS -addSn.
    + by left; rewrite /= E1.
    + by right; exists s2; rewrite addnS -addSn /= E1.
Qed.

Section Pivot.
Variables (F : archiFieldType) (L : lib F).
Notation NX := (Exact L).
Notation M := (list (list (@T NX))).
Implicit Types W : nat -> nat -> F.

Definition nonfin (x : @T NX) : bool := if x is Fin _ then false else true.
Lemma div_nonfin x y : nonfin x -> nonfin y -> @ndiv NX x y = NaN.
Proof. by case: x; case: y. Qed.
Lemma div_NaN x : @ndiv NX x NaN = NaN. Proof. by case: x. Qed.
Lemma sub_nonfin x y : nonfin y -> nonfin (@nsub NX (Fin x) y).
Proof. by case: y. Qed.
Lemma sub_NaN_r x : @nsub NX x NaN = NaN. Proof. by case: x. Qed.
Lemma sub_NaN_l x : @nsub NX NaN x = NaN. Proof. by []. Qed.
Lemma zero_pivot_div x y q : nonfin (@nsub NX (Fin x) (@ndiv NX (Fin y) (@ndiv NX (Fin 0) (Fin q)))).
Proof.
  apply: sub_nonfin. rewrite /= /signed_inf eqxx. case: (q == 0) => //. rewrite mul0r eqxx. by case: (y == 0) => //; case: ifP.
Qed.
Lemma inf_div_nonfin p q : nonfin p -> nonfin (@ndiv NX p q).
Proof. by case: p => //= _; case: q => //= q; case: ifP. Qed.

Definition shaped n c (m : M) : Prop := shape m n c.
(** Nothing finite in the rows and columns from [i] on. *)
Definition bad n c i (m : M) : Prop := forall r k, (i <= r < n)%N -> (i <= k < c)%N -> nonfin (ent m r k).
Definition good n c W0 i (m : M) : Prop := @st F L n c W0 i i.+1 m /\ forall k, (k <= i)%N -> \det (lead k W0) != 0.

Lemma bad_step n c i j m : (i < n)%N -> (i < j < n)%N -> bad n c i m -> bad n c i (step n c i j m).
Proof.
  move=> Hi /andP [Hj1 Hj2] Hb r k Hr Hk. rewrite /step ent_tab2; try (apply/ssrnat.ltP; lia).
  rewrite /step_ent eqbE lebE. case: ifP => [_|_]; last exact: Hb.
  rewrite [@ndiv NX (ent m i i) _]div_nonfin; [|apply: Hb; lia|apply: Hb; lia]. by rewrite div_NaN sub_NaN_r.
Qed.

Lemma elim_col_cases {E} (zl : E) n c W0 i m : (n <= c)%N -> (i.+1 < n)%N -> shaped n c m -> good n c W0 i m \/ bad n c i m ->
  (\det (lead n W0) = 0 /\ elim_col zl n c i m = Err zl) \/
  exists m', elim_col zl n c i m = Ok m' /\ (shaped n c m' /\ (good n c W0 i.+1 m' \/ bad n c i.+1 m')).
Proof.
  move=> Hc Hi Hsh HH. have Hin : (i < n)%N by lia. have Hic : (i < c)%N by lia. rewrite /elim_col -[(n - i.+1)%coq_nat]/(n - i.+1)%N.
  have Hlen : n = (i.+1 + (n - i.+1))%N by lia.
  have nz (x : @T NX) : nonfin x -> neqb x (@n0 NX) = false by case: x.
  (* a line with a number that is not finite is not a zero line *)
  have nzl j s : (i < j < n)%N -> (exists2 k, (i <= k < c)%N & nonfin (ent (step n c i j s) j k)) -> zero_line c i j s = false.
  { move=> Hj [k Hk Hnf]. rewrite /zero_line. apply/negP => /forallb_forall Ha.
    have Hk' : List.In k (List.seq i (c - i)) by apply/in_seq; lia.
    move: (Ha k Hk') Hnf. rewrite /step ent_tab2; try (apply/ssrnat.ltP; lia). by move=> H /nz; rewrite H. }
  case: HH => [[[W [Em H2 H3]] Hd]|Hb]; last first.
  { have := @foldM_or_stop_d E _ (\det (lead n W0) = 0) (fun _ m => shaped n c m /\ bad n c i m)
      (fun m jj => if zero_line c i jj m then Err zl else Ok (step n c i jj m)) zl i.+1 (n - i.+1)%N m (conj Hsh Hb).
    case=> [j s Hj [Hs Hbs]|H|[m' [E' [Hs Hb']]]]; [|by left|right].
    - have Hb' := bad_step Hin (_ : (i < j < n)%N) Hbs. right. exists (step n c i j s). rewrite nzl; [|lia|].
      + split=> //. split; [exact: tab2_shape|apply: Hb'; lia].
      + exists i; [lia|]. apply: Hb'; lia.
    - exists m'. split=> //. split=> //. right=> r k Hr Hk. apply: Hb'; lia. }
  case: (altP (W i i =P 0)) => Hp.
  { have := @foldM_or_stop_d E _ (\det (lead n W0) = 0) (fun j m => [/\ shaped n c m,
        (forall r k, (r < n)%N -> (k < c)%N -> ((r <= i) || (j <= r))%N -> ent m r k = Fin (W r k)) &
        (forall r k, (i < r < j)%N -> (i <= k < c)%N -> nonfin (ent m r k))])
      (fun m jj => if zero_line c i jj m then Err zl else Ok (step n c i jj m)) zl i.+1 (n - i.+1)%N m.
    case=> [|j s Hj [Hs Hf Hb]|H|[m' [E' [Hs Hf Hb]]]]; [| |by left|right].
    - split=> //; first by move=> r k Hr Hk _; rewrite Em fins_ent. move=> r k Hr; lia.
    - have Hb' k : (i <= k < c)%N -> nonfin (ent (step n c i j s) j k).
      { move=> Hk. rewrite /step ent_tab2; try (apply/ssrnat.ltP; lia). rewrite /step_ent eqbE lebE eqxx /=.
        have -> : (i <= k)%N = true by lia. rewrite !Hf; try lia. rewrite Hp. exact: zero_pivot_div. }
      right. exists (step n c i j s). rewrite nzl; [|lia|by exists i; [lia|apply: Hb'; lia]].
      split=> //. split; first exact: tab2_shape.
      + move=> r k Hr Hk Ho. rewrite /step ent_tab2; try (apply/ssrnat.ltP; lia). rewrite /step_ent eqbE lebE.
        have -> : (r == j) = false by lia. apply: Hf => //; lia.
      + move=> r k Hr Hk. case: (altP (r =P j)) => [->|Hrj]; first exact: Hb'.
        rewrite /step ent_tab2; try (apply/ssrnat.ltP; lia). rewrite /step_ent eqbE (negbTE Hrj) /=. apply: Hb => //; lia.
    - exists m'. split=> //. split=> //. right=> r k Hr Hk. apply: Hb; lia. }
  have Hd' : \det (lead i.+1 W0) != 0.
  { rewrite -(lrep_minor H2) // (upper_det H3) // big_ord_recr mulf_neq0 //.
    have := Hd i (leqnn i). rewrite -(lrep_minor H2) //; [|lia|lia]. rewrite (upper_det H3) //; lia. }
  have := @foldM_or_stop_d E _ (\det (lead n W0) = 0) (fun jj => @st F L n c W0 i jj)
    (fun m jj => if zero_line c i jj m then Err zl else Ok (step n c i jj m)) zl i.+1 (n - i.+1)%N m.
  case=> [|j s Hj [W1 [-> H21 H31]]|H|[m' [E' [W1 [H11 H21 H31]]]]]; [| |by left|right].
  - by exists W.
  - have Hij : (i < j)%N by lia. have Hjn : (j < n)%N by lia.
    have Hp1 : W1 i i != 0 by apply: (pivot H21 H31).
    have H4 := lrep_step H21 Hij Hjn (fun k Hk => H31 i k Hk Hin (introT orP (or_introl Hk))).
    have H5 := upto_step H31 Hij Hjn Hp1.
    case: (altP (\det (lead n W0) =P 0)) => HD.
    + case: ifP => _; [by left|right]. exists (step n c i j (fins L n c W1)). split=> //. rewrite step_fins //. by exists (sstep i j W1).
    + right. rewrite (zero_line_fin _ Hin Hjn Hic Hp1) (no_zero_line H4 H5 Hij Hjn Hc HD) step_fins //.
      eexists; split; first by []. by exists (sstep i j W1).
  - exists m'. split=> //. split; first by rewrite H11; exact: fins_shape. left. split.
    + exists W1. split=> // r k Hk Hr Hd1. apply: H31 => //. lia.
    + move=> k. rewrite leq_eqVlt => /orP [/eqP ->//|Hk]. apply: Hd. lia.
Qed.

(** The result of the forward elimination. *)
Lemma elim_cases {E} (zl : E) n c W0 : (0 < n)%N -> (n <= c)%N ->
  (\det (lead n W0) = 0 /\ elim zl n c (fins L n c W0) = Err zl) \/
  exists m, elim zl n c (fins L n c W0) = Ok m /\ (shaped n c m /\ (good n c W0 n.-1 m \/ bad n c n.-1 m)).
Proof.
  move=> Hn Hc. rewrite /elim -[(n - 1)%coq_nat]/(n - 1)%N.
  have := @foldM_or_stop_d E _ (\det (lead n W0) = 0) (fun i m => shaped n c m /\ (good n c W0 i m \/ bad n c i m))
    (fun m i => elim_col zl n c i m) zl 0 (n - 1)%N (fins L n c W0).
  case=> [|i s Hi [Hs HH]|H|[m' [E' H']]]; [| |by left|right].
  - split; first exact: fins_shape. left. split.
    + exists W0; split=> //; first exact: lrep_refl. move=> r k Hk Hr. rewrite ltn0 /=. move=> /andP [/eqP Ek]. lia.
    + by move=> k; rewrite leqn0 => /eqP ->; rewrite det_mx00 oner_neq0.
  - apply: elim_col_cases => //. lia.
  - exists m'. split=> //. by move: H'; rewrite add0n subn1.
Qed.
(** Row 0 stays as it is. *)
Lemma elim_row0 {E} (zl : E) n c (m m' : M) k : (0 < n)%N -> (k < c)%N -> shaped n c m -> elim zl n c m = Ok m' -> ent m' 0 k = ent m 0 k.
Proof.
  move=> Hn Hk Hm HE.
  have : shaped n c m' /\ ent m' 0 k = ent m 0 k; last by case.
  move: HE. apply: (foldM_inv (fun m' => shaped n c m' /\ ent m' 0 k = ent m 0 k)) => // s i s' Hs _.
  apply: (foldM_inv (fun m' => shaped n c m' /\ ent m' 0 k = ent m 0 k)) => // {Hs}s {}s' j [Hs Es] Hj.
  case: zero_line => // -[<-]. split; first exact: tab2_shape. rewrite /step ent_tab2; try (apply/ssrnat.ltP; lia).
  rewrite -Es /step_ent. apply in_seq in Hj. have -> : Nat.eqb 0 s' = false by apply/Nat.eqb_neq; lia. by [].
Qed.

Lemma gauss_form n (m : M) : (0 < n)%N -> shaped n (n + 1) m ->
  gauss_algorithm m = (do v <- elim InfiniteSolutions n (n + 1) m; do w <- elim InfiniteSolutions n (n + 1) (flip 1 v);
    Ok (tab n (fun i => @ndiv NX (ent w (n.-1 - i) n) (ent w (n.-1 - i) (n.-1 - i))))).
Proof.
  move=> Hn Hs. have Hle : (n <= n + 1)%coq_nat by lia.
  rewrite /gauss_algorithm (row0_len_shape m n (n + 1) Hs); last by apply/ssrnat.ltP. cbn [bind]. rewrite (proj1 Hs).
  rewrite -[(n + 1)%coq_nat]/(n + 1)%N Nat.eqb_refl; cbn [negb].
  rewrite (eliminate_form _ _ n (n + 1) Hs Hle). case E1 : elim => [v|e| |] //; cbn [bind].
  have Hv := elim_shape _ _ _ _ _ Hs E1. have Hf : shape (flip 1 v) n (n + 1) by apply: flip_shape => //; lia.
  rewrite (eliminate_form _ _ n (n + 1)) //. case E2 : elim => [w|e| |] //; cbn [bind].
  have Hw := elim_shape _ _ _ _ _ Hf E2. rewrite (proj1 Hw).
  rewrite (mapM_tab _ (fun i => @ndiv NX (ent w i n) (ent w i i))).
  - cbn [bind]. congr Ok. apply: (@nth_ext _ _ _ n0 n0); rewrite rev_length !tab_length // => i Hi.
    rewrite rev_nth tab_length // !tab_nth //; last by move/ssrnat.ltP: Hi; lia.
    have -> : (n - i.+1)%coq_nat = (n.-1 - i)%N by move/ssrnat.ltP: Hi; lia. by [].
  - move=> i Hi. rewrite (idx_row _ n (n + 1)) //; cbn [bind].
    have Lr : List.length (List.nth i w [::]) = (n + 1)%N by exact: shape_row Hw Hi.
    rewrite Lr. rewrite !(idx_nth _ _ (@n0 NX)) ?Lr; try (apply/ssrnat.ltP; move/ssrnat.ltP: Hi; lia).
    cbn [bind]. rewrite -![List.nth _ _ _]/(ent w i _). congr (Ok (@ndiv NX (ent w i _) _)). lia.
Qed.

Lemma good_last n c W0 m : (0 < n)%N -> (n <= c)%N -> good n c W0 n.-1 m -> exists W, [/\ m = fins L n c W,
  \det (lead n W0) = \det (lead n.-1 W0) * W n.-1 n.-1 & forall k, (k < n)%N -> \det (lead k W0) != 0].
Proof.
  move=> Hn Hc [[W [Em H2 H3]] Hd]. exists W. split=> //; last by move=> k Hk; apply: Hd; lia.
  rewrite -!(lrep_minor H2); try lia. rewrite !(upper_det H3); try lia.
  have -> : \prod_(r < n) W r r = \prod_(r < n.-1.+1) W r r by rewrite (prednK Hn). by rewrite big_ord_recr.
Qed.
Lemma flip_first n k (v : M) q : (0 < n)%N -> (q < k)%N -> shaped n (n + k) v ->
  ent (flip k v) 0 (n + q) = ent v n.-1 (n + (k.-1 - q)) /\ ent (flip k v) 0 0 = ent v n.-1 n.-1.
Proof.
  move=> Hn Hk Hv.
  have Hkk : (k <= n + k)%coq_nat by lia.
  rewrite !(flip_ent k v n (n + k)) //; try (apply/ssrnat.ltP; lia).
  have -> : Nat.ltb (n + q) (n + k - k)%coq_nat = false by apply/Nat.ltb_ge; lia.
  have -> : Nat.ltb 0 (n + k - k)%coq_nat = true by apply/Nat.ltb_lt; lia.
  by split; congr (ent v _ _); lia.
Qed.

(** If the last unknown is finite, no leading minor is zero. *)
Lemma gauss_finite n W0 xs : (0 < n)%N -> gauss_algorithm (fins L n (n + 1) W0) = Ok xs ->
  ~~ nonfin (List.nth n.-1 xs (@n0 NX)) -> forall m, (m <= n)%N -> \det (lead m W0) != 0.
Proof.
  move=> Hn. rewrite (gauss_form Hn (fins_shape L n (n + 1) W0)).
  case: (@elim_cases EvalError InfiniteSolutions n (n + 1) W0 Hn (leq_addr _ _)) => [[_ ->] //|[v [-> [Hv Hc]]]]. cbn [bind].
  case E2 : elim => [w|e| |] //; cbn [bind]. move=> [<-]. rewrite tab_nth; last by apply/ssrnat.ltP; lia. rewrite subnn.
  have Hf : shaped n (n + 1) (flip 1 v) by apply: flip_shape => //; lia.
  rewrite (elim_row0 Hn _ Hf E2); last lia. rewrite (elim_row0 Hn _ Hf E2); last lia.
  have [F1 F2] := flip_first Hn (ltn0Sn 0) Hv. rewrite addn0 in F1. rewrite F1 F2.
  rewrite -[ext_div _ _]/(@ndiv NX _ _).
  case: Hc => [Hg|Hb]; last by rewrite div_nonfin // Hb; lia.
  have [W [-> HD Hd]] := good_last Hn (leq_addr _ _) Hg. rewrite !fins_ent; try lia.
  case: (altP (W n.-1 n.-1 =P 0)) => Hz.
  - rewrite Hz /= eqxx /signed_inf. case: ifP => //. by case: ifP.
  - move=> _ m. rewrite leq_eqVlt => /orP [/eqP ->|]; last exact: Hd. rewrite HD mulf_neq0 //; apply: Hd; lia.
Qed.
(** With a non-zero determinant there is always an answer. *)
Lemma elim_flip_ok {E} (zl : E) n c (m : M) : (0 < n)%N -> (n < c)%N -> shaped n c m -> nonfin (ent m 0 0) -> nonfin (ent m 0 c.-1) ->
  exists m', elim zl n c m = Ok m'.
Proof.
  move=> Hn Hc Hm H0 H1.
  pose P i j (m : M) := [/\ shaped n c m, nonfin (ent m 0 0), nonfin (ent m 0 c.-1) &
    (forall r, (0 < r < n)%N -> (0 < i)%N || (r < j)%N -> ent m r c.-1 = NaN)].
  have Hstep i j s : (i < j < n)%N -> P i j s -> zero_line c i j s = false /\ P i j.+1 (step n c i j s).
  { move=> Hij [Hs Ha Hb Hr].
    have Hx : step_ent s i j j c.-1 = NaN.
    { rewrite /step_ent eqbE lebE eqxx [true && _]/=. have -> : (i <= c.-1)%N = true by lia.
      case: i Hij Hr => [|i] Hij Hr; last by rewrite (Hr j) //; lia.
      rewrite (@div_nonfin (ent s 0 c.-1)) ?sub_NaN_r //. exact: inf_div_nonfin. }
    split.
    - rewrite /zero_line. apply/negP => /forallb_forall Hz. have : List.In c.-1 (List.seq i (c - i)) by apply/in_seq; lia.
      move=> /Hz. by rewrite Hx.
    - split; first exact: tab2_shape.
      + rewrite /step ent_tab2; try (apply/ssrnat.ltP; lia). rewrite /step_ent eqbE. by have -> : (0 == j)%N = false by lia.
      + rewrite /step ent_tab2; try (apply/ssrnat.ltP; lia). rewrite /step_ent eqbE. by have -> : (0 == j)%N = false by lia.
      + move=> r Hrn Ho. rewrite /step ent_tab2; try (apply/ssrnat.ltP; lia).
        case: (altP (r =P j)) => [->//|Hrj]. rewrite /step_ent eqbE (negbTE Hrj) /=. apply: Hr => //. lia. }
  have [|i s /andP [_ Hi] Hs|m' [E' _]] := @foldM_iota E _ (fun i m => P i i.+1 m) (fun m i => elim_col zl n c i m) 0 (n - 1)%N m; last by exists m'.
  - split=> // r Hr. lia.
  - have [j s1 Hj Hs1|m' [E' Hm']] := @foldM_iota E _ (fun j m => P i j m) (fun m j => if zero_line c i j m then Err zl else Ok (step n c i j m))
      i.+1 (n - i.+1)%N s Hs.
    + have Hj2 : (i < j < n)%N by lia. have [-> H] := Hstep i j s1 Hj2 Hs1. by exists (step n c i j s1).
    + exists m'. split; first exact: E'. case: Hm' => Q1 Q2 Q3 Q4. split=> // r Hr _. apply: Q4 => //. lia.
Qed.
End Pivot.
