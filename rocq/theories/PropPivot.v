(** * PropPivot: C24, C38 completed - finite answers are right, and when they
    are finite (exact arithmetic).

    [inv] and the equation solver eliminate without exchanging rows, so a zero
    pivot is not avoided.  These theorems say what comes out in every case. *)
From Coq Require Import ZArith Lia List String.
Set Warnings "-notation-overridden,-ambiguous-paths".
From mathcomp Require Import all_ssreflect all_algebra zify.
From Verif Require Import Base BaseFacts Num Types Maths Parser Eval GrammarSpec MathsForms Exact ExactSpec ExactLinear ExactRound ExactElim ExactGauss ExactPivot PropExact
  SpecEval CalcSpec SolveSpec SearchSpec PropCalcExact PropLinear.
Import GRing.Theory Order.Theory mathcomp.algebra.ssrnum.Num.Theory.
Set Implicit Arguments.
Unset Strict Implicit.
Unset Printing Implicit Defensive.
Local Open Scope ring_scope.

Section Props.
Variables (F : archiFieldType) (L : lib F).
Notation NX := (Exact L).

Lemma lead_minors n (A : 'M[F]_n) : (forall m, (m <= n)%N -> \det (lead m (fn A)) != 0) -> regular_minors A.
Proof.
  move=> H m Hm. have := H m Hm. congr (\det _ != 0). apply/matrixP => i j. by rewrite !mxE -fn_ord.
Qed.
Lemma nonfin_or x : @nonfin F L x = nis_nan x || nis_inf x. Proof. by case: x. Qed.

(** The augmented matrix of [A x = b], as a table. *)
Definition aug n (A : 'M[F]_n) (b : 'cV[F]_n) i j : F := if (j < n)%N then fn A i j else fn b i 0%N.
Lemma lead_aug n (A : 'M[F]_n) b m : (m <= n)%N -> lead m (aug A b) = lead m (fn A).
Proof. move=> Hm. apply: lead_ext => i j Hi Hj. by rewrite /aug (leq_trans Hj). Qed.

(** ** C38 *)
(** Whatever the linear system: if the elimination returns numbers that are all
    finite, they are the solution (and the only one). *)
Theorem c38_finite_answers_are_solutions n (A : 'M[F]_n) (b : 'cV[F]_n) xs : (0 < n)%N ->
  gauss_algorithm (system L A b) = Ok xs -> (forall x, List.In x xs -> ~~ (nis_nan x || nis_inf x)) ->
  [/\ regular_minors A, A *m (invmx A *m b) = b & xs = [seq Fin ((invmx A *m b) i 0) | i <- enum 'I_n]].
Proof.
  move=> Hn HG Hfin. have Hl : List.length xs = n.
  { move: HG. rewrite system_fins (gauss_form Hn (fins_shape _ _ _ _)).
    case: elim => [v|e| |] //; cbn [bind]. case: elim => [w|e| |] //; cbn [bind]. move=> [<-]. by rewrite tab_length. }
  have Hm : regular_minors A.
  { apply: lead_minors => m Hm. rewrite -(lead_aug A b Hm).
    move: HG. rewrite system_fins => HG. apply: (gauss_finite Hn HG) => //. rewrite nonfin_or. apply: Hfin. apply: nth_In. rewrite Hl. apply/ssrnat.ltP. lia. }
  have Hu : A \in unitmx by rewrite unitmxE unitfE minors_det.
  have Hs : A *m (invmx A *m b) = b by rewrite mulmxA mulmxV // mul1mx.
  split=> //. have := c38_solution L Hn Hm Hs. by rewrite HG => -[].
Qed.
(** A regular matrix never gives an error; the answer is finite exactly if no
    leading minor is zero. *)
Theorem c38_regular_systems n (A : 'M[F]_n) (b : 'cV[F]_n) : (0 < n)%N -> \det A != 0 ->
  exists2 xs, gauss_algorithm (system L A b) = Ok xs &
    ((forall x, List.In x xs -> ~~ (nis_nan x || nis_inf x)) <-> regular_minors A).
Proof.
  move=> Hn HD. have HDl : \det (lead n (aug A b)) != 0 by rewrite lead_aug // /lead -mx_fn.
  suff [xs HG] : exists xs, gauss_algorithm (system L A b) = Ok xs.
  { exists xs => //. split=> [Hf|Hm]; first by case: (c38_finite_answers_are_solutions Hn HG Hf).
    have Hu : A \in unitmx by rewrite unitmxE unitfE.
    have := c38_solution L Hn Hm (_ : A *m (invmx A *m b) = b). rewrite mulmxA mulmxV // mul1mx HG => /(_ erefl) [->] x.
    move=> /List.in_map_iff [i [<- _]]. by []. }
  rewrite system_fins (gauss_form Hn (fins_shape _ _ _ _)).
  case: (@elim_cases F L EvalError InfiniteSolutions n (n + 1) (aug A b) Hn (leq_addr _ _)) => [[H0 _]|[v [Ev [Hv Hc]]]].
  { by rewrite H0 eqxx in HDl. }
  case: Hc => [Hg|Hb].
  - have [W [_ HD2 Hd]] := good_last Hn (leq_addr _ _) Hg.
    have Hall m : (m <= n)%N -> \det (lead m (aug A b)) != 0 by rewrite leq_eqVlt => /orP [/eqP ->//|]; exact: Hd.
    have [V [W' [-> E2 _ _]]] := @gauss_jordan F L EvalError InfiniteSolutions n 1 (aug A b) Hn Hall. cbn [bind]. rewrite E2. by eexists.
  - rewrite Ev. cbn [bind]. have Hf : shaped n (n + 1) (flip 1 v) by apply: flip_shape => //; lia.
    have [F1 F2] := flip_first Hn (ltn0Sn 0) Hv. rewrite addn0 in F1.
    have [| | |w ->] := elim_flip_ok InfiniteSolutions Hn (_ : (n < n + 1)%N) Hf; [lia|by rewrite F2; apply: Hb; lia| |by eexists].
    have -> : (n + 1).-1 = n by lia. rewrite F1. apply: Hb; lia.
Qed.
(** A singular matrix gives the error for infinitely many solutions or a number
    that is not finite. *)
Theorem c38_singular_systems n (A : 'M[F]_n) (b : 'cV[F]_n) : (0 < n)%N -> \det A = 0 ->
  gauss_algorithm (system L A b) = Err InfiniteSolutions \/
  exists2 xs, gauss_algorithm (system L A b) = Ok xs & exists2 x, List.In x xs & nis_nan x || nis_inf x.
Proof.
  move=> Hn HD. case HG : (gauss_algorithm (system L A b)) => [xs|e| |].
  - right. exists xs => //. have := @gauss_finite F L n (aug A b) xs Hn. rewrite system_fins in HG. move=> /(_ HG) H.
    exists (List.nth n.-1 xs (@n0 NX)).
    + apply: nth_In. move: HG. rewrite (gauss_form Hn (fins_shape _ _ _ _)).
      case: elim => [v|e| |] //; cbn [bind]. case: elim => [w|e| |] //; cbn [bind]. move=> [<-]. rewrite tab_length. apply/ssrnat.ltP. lia.
    + rewrite -nonfin_or. apply/negPn/negP => /H /(_ n (leqnn n)). rewrite lead_aug // /lead -mx_fn HD. by rewrite eqxx.
  - left. move: HG. rewrite system_fins (gauss_form Hn (fins_shape _ _ _ _)).
    case: (elim_total InfiniteSolutions n (n + 1) (fins L n (n + 1) (aug A b))) => [->|[v ->]]; cbn [bind]; first by [].
    case: (elim_total InfiniteSolutions n (n + 1) (flip 1 v)) => [->|[w ->]]; by cbn [bind].
  - exfalso. move: HG. rewrite system_fins (gauss_form Hn (fins_shape _ _ _ _)).
    case: (elim_total InfiniteSolutions n (n + 1) (fins L n (n + 1) (aug A b))) => [->|[v ->]]; cbn [bind]; first by [].
    case: (elim_total InfiniteSolutions n (n + 1) (flip 1 v)) => [->|[w ->]]; by cbn [bind].
  - exfalso. move: HG. rewrite system_fins (gauss_form Hn (fins_shape _ _ _ _)).
    case: (elim_total InfiniteSolutions n (n + 1) (fins L n (n + 1) (aug A b))) => [->|[v ->]]; cbn [bind]; first by [].
    case: (elim_total InfiniteSolutions n (n + 1) (flip 1 v)) => [->|[w ->]]; by cbn [bind].
Qed.

(** ** C24 *)
Definition augI n (A : 'M[F]_n) i j : F := if (j < n)%N then fn A i j else (j - n == i)%N%:R.
Lemma inv_augI n (A : 'M[F]_n) : (0 < n)%N -> \det A != 0 ->
  inv (mat L A) = (do v <- elim "Infinite solutions"%string n (n + n) (fins L n (n + n) (augI A));
    do w <- elim "Infinite solutions"%string n (n + n) (flip n v);
    Ok (@Matrix NX (tab2 n n (fun i j => nmul (ent w (n - 1 - i)%coq_nat (n + (n - 1 - j))%coq_nat)
      (ndiv n1 (ent w (n - 1 - i)%coq_nat (n - 1 - i)%coq_nat)))))).
Proof.
  move=> Hn HD. rewrite mat_fins /inv (inv_form _ n (elimT ssrnat.ltP Hn) (fins_shape _ _ _ _)).
  have -> : @laplace NX n (ent (fins L n n (fn A))) = Fin (\det A).
  { rewrite (@laplace_ext NX n _ (fun i j => Fin (fn A i j))); first by rewrite laplace_fin // -mx_fn.
    move=> i j /ssrnat.ltP Hi /ssrnat.ltP Hj. by rewrite fins_ent. }
  have -> : @neqb NX (Fin (\det A)) (@n0 NX) = false by exact: negbTE.
  have -> : augmented n (fins L n n (fn A)) = fins L n (n + n) (augI A); last by [].
  apply: (shape_ext _ _ n (n + n)); [exact: augmented_shape (fins_shape _ _ _ _)|exact: fins_shape|].
  move=> i j /ssrnat.ltP Hi /ssrnat.ltP Hj. rewrite [RHS]fins_ent // /augI.
  rewrite (augmented_ent n _ i j (fins_shape _ _ _ _) (elimT ssrnat.ltP Hi) (elimT ssrnat.ltP Hj)).
  have -> : Nat.ltb j n = (j < n)%N by rewrite /Nat.ltb lebE.
  case: (ltnP j n) => Hj'; first by rewrite fins_ent.
  rewrite eqbE n0E n1E. by case: (_ == _).
Qed.
Lemma lead_augI n (A : 'M[F]_n) m : (m <= n)%N -> lead m (augI A) = lead m (fn A).
Proof. move=> Hm. apply: lead_ext => i j Hi Hj. by rewrite /augI (leq_trans Hj). Qed.

(** A matrix with non-zero determinant always gets an answer: the inverse if no
    leading minor is zero, otherwise a matrix with a number that is not
    finite. *)
Theorem c24_regular n (A : 'M[F]_n) : (0 < n)%N -> \det A != 0 ->
  exists2 v, inv (mat L A) = Ok v & (is_inf_or_nan v = false <-> regular_minors A).
Proof.
  move=> Hn HD. have HDl : \det (lead n (augI A)) != 0 by rewrite lead_augI // /lead -mx_fn.
  have Yes : regular_minors A -> exists2 v, inv (mat L A) = Ok v & (is_inf_or_nan v = false <-> regular_minors A).
  { move=> Hm. exists (mat L (invmx A)); first exact: c24_inverse. split=> // _. rewrite mat_fins /is_inf_or_nan. apply/negP => /existsb_exists [row [Hr]].
    move=> /existsb_exists [x [Hx]]. apply in_map_iff in Hr. destruct Hr as [i [<- _]]. apply in_map_iff in Hx. by destruct Hx as [j [<- _]]. }
  have [[H0 _]|[v [Ev [Hv Hc]]]] := @elim_cases F L string "Infinite solutions"%string n (n + n) (augI A) Hn (leq_addr _ _).
  { by rewrite H0 eqxx in HDl. }
  case: Hc => [Hg|Hb].
  - have [W [_ _ Hd]] := good_last Hn (leq_addr _ _) Hg. apply: Yes. apply: lead_minors => m Hm. rewrite -(lead_augI A Hm).
    move: Hm. rewrite leq_eqVlt => /orP [/eqP ->//|]. exact: Hd.
  - rewrite inv_augI // Ev. cbn [bind]. have Hf : shaped n (n + n) (flip n v) by apply: flip_shape => //; lia.
    have Hfl q : (q < n)%N -> nonfin (ent (flip n v) 0 (n + q)) /\ nonfin (ent (flip n v) 0 0).
    { move=> Hq. have [-> ->] := flip_first Hn Hq Hv. split; apply: Hb; lia. }
    have [| | |w Ew] := elim_flip_ok "Infinite solutions"%string Hn (_ : (n < n + n)%N) Hf; [lia|by have [] := Hfl 0%N Hn| |].
    { have -> : (n + n).-1 = (n + n.-1)%N by lia. by have [|] := Hfl n.-1; first lia. }
    rewrite Ew. cbn [bind]. eexists; first by []. 
    have Hnf : is_inf_or_nan (@Matrix NX (tab2 n n (fun i j => nmul (ent w (n - 1 - i)%coq_nat (n + (n - 1 - j))%coq_nat)
      (ndiv n1 (ent w (n - 1 - i)%coq_nat (n - 1 - i)%coq_nat))))) = true.
    { have Hin : List.In n.-1 (List.seq 0 n) by apply/in_seq; lia.
      rewrite /is_inf_or_nan. apply/existsb_exists. eexists. split; first exact: (in_map _ _ _ Hin).
      apply/existsb_exists. eexists. split; first exact: (in_map _ _ _ Hin).
      have -> : (n - 1 - n.-1)%coq_nat = 0%N by lia. have -> : (n + (n - 1 - n.-1))%coq_nat = (n + 0)%N by lia.
      rewrite (elim_row0 Hn _ Hf Ew); last lia. rewrite (elim_row0 Hn _ Hf Ew); last lia. have [] := Hfl 0%N Hn.
      case: (ent (flip n v) 0 (n + 0)) => //; case: (ent (flip n v) 0 0) => //= _ _; by rewrite ?mul1r /signed_inf ?oppr0 ?eqxx. }
    rewrite Hnf. split=> // Hm. exfalso. move: Hm => /minors_lead Hm.
    have Hm' m : (m <= n)%N -> \det (lead m (augI A)) != 0 by move=> H; rewrite lead_augI //; exact: Hm.
    have [V [W [E1 _ _ _]]] := @gauss_jordan F L string "Infinite solutions"%string n n (augI A) Hn Hm'.
    rewrite Ev in E1. case: E1 => E1. have := Hb n.-1 n.-1. rewrite E1 fins_ent; try lia. move=> H. suff : false by []. apply: H; lia.
Qed.
(** Whatever the square matrix: a result without infinities and NaN is the inverse. *)
Theorem c24_finite_is_inverse n (A : 'M[F]_n) v : (0 < n)%N -> inv (mat L A) = Ok v -> is_inf_or_nan v = false ->
  regular_minors A /\ v = mat L (invmx A).
Proof.
  move=> Hn Hv Hf. case: (altP (\det A =P 0)) => HD; first by rewrite c24_singular in Hv.
  have [w Hw Hiff] := c24_regular Hn HD. have E : v = w by move: Hw; rewrite Hv => -[]. subst w.
  have Hm : regular_minors A by apply/Hiff. split=> //. move: Hv. by rewrite c24_inverse // => -[].
Qed.
End Props.

(** ** C69: a step of the search for solutions is a step of Newton's method

    [r] holds by how much the equations miss at the point [x], [C] by how much
    they miss when one unknown (the column) is increased by [h = 10^-PREC].  If the
    search goes on from [x] (to a point with finite coordinates), the matrix [J]
    of the difference quotients is invertible and the next point is
    [x - J^-1 r]. *)
Section Newton.
Variables (F : archiFieldType) (L : lib F) (En : Env).
Notation NX := (Exact L).

Lemma combine_tab {A} n (f : nat -> A) : List.combine (List.seq 0 n) (tab n f) = tab n (fun i => (i, f i)).
Proof. rewrite /tab. elim: (List.seq 0 n) => //= i l ->. by []. Qed.
Lemma tab_last {A} n (f : nat -> A) : tab (n + 1) f = tab n f ++ [:: f n].
Proof. by rewrite /tab List.seq_app List.map_app. Qed.

Lemma newton_rows_system n (r : 'cV[F]_n.+1) (C : 'M[F]_n.+1) :
  newton_rows (coords L r) [seq coords L (col j C) | j <- enum 'I_n.+1]
  = system L (\matrix_(i, j) ((C i j - r i 0) / 10%:R ^- @prec En)) (- r).
Proof.
  have Hh : (10%:R ^- @prec En : F) != 0 by rewrite invr_eq0 expf_neq0 // ten_neq0.
  rewrite system_fins /newton_rows coords_length (coords_vfins L r) /vfins combine_tab /fins /tab2 /tab List.map_map.
  apply: List.map_ext_in => i /in_seq Hi. have Hin : (i < n.+1)%N by lia. rewrite [fst _]/= [snd _]/=.
  rewrite -/(tab (n.+1 + 1) _) tab_last -enum_tab. congr (_ ++ _).
  - rewrite Map_map -map_comp. apply: eq_map => j. rewrite /comp ltn_ord.
    rewrite coords_vfins /vfins tab_nth; last by apply/ssrnat.ltP.
    rewrite -[@nadd NX _ _]/(Fin (_ + _ * (-1))) step_h_fin (div_fin L) //. congr Fin.
    by rewrite -[i]/(val (Ordinal Hin)) -[0%N]/(val (0 : 'I_1)) !fn_ord !mxE mulrN1.
  - rewrite ltnn. congr [:: Fin _]. by rewrite -[i]/(val (Ordinal Hin)) -[0%N]/(val (0 : 'I_1)) !fn_ord !mxE mulN1r.
Qed.

Theorem c69_newton_step n (x r : 'cV[F]_n.+1) (C : 'M[F]_n.+1) d :
  let h : F := 10%:R ^- @prec En in
  let J := \matrix_(i, j) ((C i j - r i 0) / h) in
  gauss_algorithm (newton_rows (coords L r) [seq coords L (col j C) | j <- enum 'I_n.+1]) = Ok d ->
  forallb finite (moved d (coords L x)) = true ->
  J \in unitmx /\ moved d (coords L x) = coords L (x - invmx J *m r).
Proof.
  move=> h J. have Hh : h != 0 by rewrite invr_eq0 expf_neq0 // ten_neq0.
  rewrite newton_rows_system -/J.
  move=> HG Hf.
  have Hl : List.length d = n.+1.
  { move: HG. rewrite system_fins (gauss_form (ltn0Sn n) (fins_shape _ _ _ _)).
    case: elim => [v|e| |] //; cbn [bind]. case: elim => [w|e| |] //; cbn [bind]. move=> [<-]. by rewrite tab_length. }
  have Hm i : lt i n.+1 -> List.nth i (moved d (coords L x)) (@n0 NX) = @nadd NX (List.nth i d (@n0 NX)) (Fin (fn x i 0%N)).
  { move=> Hi. rewrite /moved. have := List.map_nth (fun p => @nadd NX p.1 p.2) (List.combine d (coords L x)) (@n0 NX, @n0 NX) i.
    rewrite List.combine_nth ?coords_length // => E. rewrite (List.nth_indep _ _ (@nadd NX (@n0 NX) (@n0 NX))) ?E.
    - rewrite [X in _ = X]/=. congr (@nadd NX _ _). rewrite coords_vfins /vfins tab_nth //.
    - by rewrite map_length combine_length Hl coords_length Nat.min_id. }
  have Hd y : List.In y d -> ~~ (nis_nan y || nis_inf y).
  { move=> /(List.In_nth _ _ (@n0 NX)) [i [Hi <-]]. rewrite Hl in Hi. apply/negP => Hy.
    move/forallb_forall: Hf => /(_ (List.nth i (moved d (coords L x)) (@n0 NX))) H.
    have Hlm : List.length (moved d (coords L x)) = n.+1 by rewrite /moved map_length combine_length Hl coords_length Nat.min_id.
    have /H : List.In (List.nth i (moved d (coords L x)) (@n0 NX)) (moved d (coords L x)) by apply: nth_In; rewrite Hlm.
    rewrite Hm //. by move: Hy; case: (List.nth i d (@n0 NX)). }
  have [Hreg _ Ed] := c38_finite_answers_are_solutions (ltn0Sn n) HG Hd.
  have HU : J \in unitmx by rewrite unitmxE unitfE minors_det.
  split=> //. apply: (@List.nth_ext _ _ _ (@n0 NX) (@n0 NX)).
  - by rewrite /moved map_length combine_length Hl !coords_length Nat.min_id.
  - move=> i. rewrite /moved map_length combine_length Hl coords_length Nat.min_id => Hi.
    rewrite Hm // Ed. have Hin : (i < n.+1)%N by apply/ssrnat.ltP. rewrite -[i]/(val (Ordinal Hin)) -[0%N]/(val (0 : 'I_1)) fn_ord.
    rewrite -/(coords L (invmx J *m - r)) -!/(com _ _) !coords_com -[@nadd NX _ _]/(Fin (_ + _)). congr Fin.
    by rewrite mulmxN !mxE addrC.
Qed.
End Newton.

(** ** A concrete case: exchanging two unknowns *)
Module Examples.
Definition S (F : archiFieldType) : 'M[F]_2 := \matrix_(i < 2, j < 2) (val i != val j)%:R.
Example S_regular (F : archiFieldType) : \det (S F) != 0.
Proof.
  rewrite (expand_det_row _ 0) !big_ord_recl big_ord0 /cofactor !mxE /= mul0r add0r addr0 mul1r expr1 !det_mx11 !mxE /=.
  by rewrite mulN1r oppr_eq0 oner_neq0.
Qed.
Example S_minor (F : archiFieldType) : ~ regular_minors (S F).
Proof. move=> H. have := H 1%N isT. by rewrite det_mx11 !mxE /= eqxx. Qed.
Example inverse (F : archiFieldType) (L : lib F) : exists2 v, inv (mat L (S F)) = Ok v & is_inf_or_nan v = true.
Proof.
  have [v Hv Hiff] := c24_regular L (ltn0Sn 1) (S_regular F). exists v => //.
  case E : (is_inf_or_nan v) => //. by case: (@S_minor F); apply/Hiff.
Qed.
(** [x1 = b0, x0 = b1] is not solved by the elimination. *)
Example swapped (F : archiFieldType) (L : lib F) (b : 'cV[F]_2) :
  exists2 xs, gauss_algorithm (system L (S F) b) = Ok xs & exists2 x, List.In x xs & nis_nan x || nis_inf x.
Proof.
  have [xs Hx Hiff] := c38_regular_systems L b (ltn0Sn 1) (S_regular F). exists xs => //.
  have [/existsb_exists [x [Hin Hx2]]|Hn] := boolP (existsb (fun x => nis_nan x || nis_inf x) xs); first by exists x.
  case: (@S_minor F). apply/Hiff => x Hin. apply/negP => Hx2. case/negP: Hn. apply/existsb_exists. by exists x.
Qed.
(** One Newton step in one unknown where the difference quotient is not zero
    (for instance for [x^2 = 2] from 1): the hypotheses of [c69_newton_step]
    hold. *)
Example newton_step (F : archiFieldType) (L : lib F) (En : Env) (x r c : F) : c != r ->
  exists2 d, gauss_algorithm (newton_rows (coords L (const_mx r : 'cV[F]_1)) [seq coords L (col j (const_mx c : 'M[F]_1)) | j <- enum 'I_1]) = Ok d &
    forallb finite (moved d (coords L (const_mx x : 'cV[F]_1))) = true.
Proof.
  move=> Hc. rewrite newton_rows_system. set J := \matrix_(i, j) _. set b := - const_mx r.
  have HJ : \det J != 0.
  { rewrite det_mx11 !mxE. apply: mulf_neq0; first by rewrite subr_eq0. by rewrite !invr_eq0 expf_neq0 // ten_neq0. }
  have Hreg : regular_minors J.
  { move=> k Hk. case: k Hk => [|[|k]] // Hk; first by rewrite det_mx00 oner_neq0.
    have -> : leading J Hk Hk = J; last by []. apply/matrixP => i j. rewrite mxE. by congr (J _ _); apply: val_inj. }
  have HU : J \in unitmx by rewrite unitmxE unitfE.
  have HS : J *m (invmx J *m b) = b by rewrite mulmxA mulmxV // mul1mx.
  exists (coords L (invmx J *m b)); first exact: c38_solution (ltn0Sn 0) Hreg HS.
  apply/forallb_forall => y. rewrite /moved => /in_map_iff [[u v] [<- Hin]].
  have /in_map_iff [i [<- _]] := in_combine_l _ _ _ _ Hin. by have /in_map_iff [k [<- _]] := in_combine_r _ _ _ _ Hin.
Qed.
End Examples.
