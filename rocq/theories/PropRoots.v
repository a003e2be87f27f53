(** * PropRoots: C81, equations in one unknown in exact arithmetic: when the search converges, and quadratic equations. *)
From Coq Require Import ZArith Lia List String Sorting.Sorted.
Set Warnings "-notation-overridden,-ambiguous-paths".
From mathcomp Require Import all_ssreflect all_algebra zify.
From Verif Require Import Base BaseFacts F64 Num Types Maths Parser Eval EvalFuel SpecEval EvalProofs ContextProofs GrammarSpec
  MathsForms CalcSpec SolveSpec SolveProofs SolveProofs2 PropEval PropSolve SolveForward SearchSpec Search PropSearch
  Exact ExactSpec ExactLinear ExactRound PropExact PropCalcExact PropAccuracy PropLinear.
Import GRing.Theory Order.Theory mathcomp.algebra.ssrnum.Num.Theory.
Set Implicit Arguments.
Unset Strict Implicit.
Unset Printing Implicit Defensive.
Local Open Scope ring_scope.

(** Polynomial identities, for any commutative ring. *)
Section Identities.
Variables (R : Type) (rO rI : R) (radd rmul rsub : R -> R -> R) (ropp : R -> R).
Hypothesis RT : ring_theory rO rI radd rmul rsub ropp eq.
Add Ring Rring3 : RT.
Local Infix "+" := radd. Local Infix "*" := rmul. Local Infix "-" := rsub.
Lemma id_slope (a t k s s' : R) : a * (t + k - s) * (t + k - s') - a * (t - s) * (t - s') = a * ((t - s) + (t - s') + k) * k.
Proof. ring. Qed.
Lemma id_next (u w k : R) : u * (u + w + k) - u * w = u * (u + k).
Proof. ring. Qed.
Lemma id_factor (a b c s s' t : R) : a * t * t + b * t + c = a * (t - s) * (t - s') + (b + a * (s + s')) * (t - s) + (a * s * s + b * s + c).
Proof. ring. Qed.
Lemma id_roots (a b c s s' : R) : (a * s * s + b * s + c) - (a * s' * s' + b * s' + c) = (b + a * (s + s')) * (s - s').
Proof. ring. Qed.
Lemma id_right (u D k : R) : (u + (u + D) + k) - (rI + rI) * (u + k) = D - k.
Proof. ring. Qed.
Lemma id_left_pos (u D k : R) : ropp (u + (u - D) + k) - (rI + rI) * (u + k) =
  (D - (rI + (rI + (rI + (rI + (rI + (rI + rI)))))) * k) + (rI + (rI + (rI + rI))) * (k - u).
Proof. ring. Qed.
Lemma id_left_neg (u D k : R) : ropp (u + (u - D) + k) - (rI + rI) * ropp (u + k) = D + k.
Proof. ring. Qed.
Lemma id_left_d (u D k : R) : ropp (u + (u - D) + k) = (D - (rI + (rI + (rI + (rI + (rI + (rI + rI)))))) * k) + ((rI + rI) * (k - u) + (rI + (rI + (rI + rI))) * k).
Proof. ring. Qed.
End Identities.

Section Roots.
Context {En : Env}.
Variables (F : archiFieldType) (L : lib F).
Notation NX := (Exact L).
Notation outcomeX := (@outcome NX En).
(** The step of the difference quotients and the tolerance, 10^-PREC. *)
Notation h := (10%:R ^- @prec En : F).

(** The two sides of the equation [e] differ by [f t] when [x] is [t]. *)
Definition differ_by (f : F -> F) (e : AST NX * AST NX) (x : str) (c : Ctx NX) : Prop :=
  forall t, misses_by (set_num c x (Fin t : @T NX)) e (Fin (f t)).
(** The square root is exact on squares. *)
Definition exact_sqrt : Prop := forall t : F, x_sqrt L (Fin (t ^+ 2)) = Fin `|t|.
(** The difference quotient and the next point of the search. *)
Definition slope_at (f : F -> F) (t : F) : F := (f (t + h) - f t) / h.
Definition next_at (f : F -> F) (t : F) : F := t - f t / slope_at f t.

Lemma h_pos : 0 < h. Proof. by rewrite invr_gt0 exprn_gt0 // ltr0n. Qed.
Lemma h_nz : h != 0. Proof. by rewrite lt0r_neq0 // h_pos. Qed.

Section Search.
Variables (f : F -> F) (e : AST NX * AST NX) (x : str) (c : Ctx NX) (p : F).
Hypothesis He : differ_by f e x c.
Hypothesis Hdef : ~ defined c [:: x].
Hypothesis Hsqrt : exact_sqrt.
Hypothesis Hprobe : x_probe L = Fin p.

Notation runs := (@run NX En misses_by [:: e] [::] [:: x] c).

Notation pt t := ([:: Fin t : @T NX]).
Lemma res1 (t : F) : @residuals NX misses_by [:: x] c [:: e] [:: Fin t] [:: Fin (f t)].
Proof. constructor; [exact: He|constructor]. Qed.
Lemma tiny1 (r : F) : @tiny NX En [:: Fin r] = (`|r| < h).
Proof.
  rewrite /tiny. have -> : @length2 NX [:: Fin r] = Fin `|r|.
  { rewrite -Hsqrt /length2 expr2. congr (x_sqrt L). rewrite /=. congr Fin. by rewrite -[Pos.to_nat 1]/1%N ?mul1r add0r. }
  rewrite step_h_fin. rewrite -[nltb _ _ && _]/((- h < `|r|) && (`|r| < h)).
  have -> // : - h < `|r|. apply: lt_le_trans (normr_ge0 r). by rewrite oppr_lt0 h_pos.
Qed.
Lemma cols1 (t : F) : @columns NX En misses_by [:: e] [:: x] c [:: Fin t] [:: [:: Fin (f (t + h))]].
Proof.
  split=> // -[|j] col //=; last by case: j.
  move=> [<-]. rewrite /bump /= step_h_fin. exact: res1.
Qed.
Lemma gauss1 (t : F) : @gauss_algorithm NX (@newton_rows NX En [:: Fin (f t)] [:: [:: Fin (f (t + h))]])
  = Ok [:: @ndiv NX (Fin (- f t)) (Fin (slope_at f t))].
Proof.
  rewrite /newton_rows /= step_h_fin. rewrite /gauss_algorithm /=. rewrite (negbTE h_nz) /=.
  by rewrite mulrN1 mulN1r.
Qed.

Lemma run_stop m t : `|f t| < h -> runs m.+1 (pt t) (Found (pt t)).
Proof. move=> H. apply: run_found; [exact: res1|by rewrite tiny1|by constructor|by left]. Qed.
Lemma run_step m t z : h <= `|f t| -> slope_at f t != 0 -> runs m (pt (next_at f t)) z -> runs m.+1 (pt t) z.
Proof.
  move=> H Hq Hr. apply: run_next; [exact: res1|by rewrite tiny1 ltNge H|exact: cols1|exact: gauss1| |].
  - by rewrite /= (negbTE Hq).
  - move: Hr. by rewrite /moved /= (negbTE Hq) /next_at mulNr addrC.
Qed.
Lemma run_lost m t : h <= `|f t| -> slope_at f t = 0 -> runs m.+1 (pt t) Lost.
Proof.
  move=> H Hq. apply: run_away; [exact: res1|by rewrite tiny1 ltNge H|exact: cols1|exact: gauss1|].
  rewrite /= Hq eqxx /signed_inf. by case: ifP => //; case: ifP.
Qed.
Lemma run_any m t : exists2 z, runs m (pt t) z & z = Lost \/ exists2 v, z = Found (pt v) & `|f v| < h.
Proof.
  elim: m t => [|m IH] t; first by exists Lost; [constructor|left].
  case: (ltP `|f t| h) => H; first by exists (Found (pt t)); [exact: run_stop|right; exists t].
  case: (eqVneq (slope_at f t) 0) => Hq; first by exists Lost; [exact: run_lost|left].
  have [z Hz Hc] := IH (next_at f t). exists z => //. exact: run_step.
Qed.

(** ** The general convergence theorem, one starting point *)
Lemma run_converges (s M rho : F) (P : F -> Prop) m t :
  0 <= rho ->
  (forall u, P u -> `|f (s + u)| <= M * `|u|) ->
  (forall u, P u -> h <= `|f (s + u)| -> slope_at f (s + u) != 0 /\ P (next_at f (s + u) - s) /\ `|next_at f (s + u) - s| <= rho * `|u|) ->
  P (t - s) -> 0 <= M -> M * (rho ^+ m * `|t - s|) < h ->
  exists2 v, runs m.+1 (pt t) (Found (pt v)) & P (v - s) /\ `|f v| < h.
Proof.
  move=> Hr HM Hc + HM0. elim: m t => [|m IH] t Pt Hm.
  - have Hf : `|f t| < h by apply: le_lt_trans Hm; rewrite expr0 mul1r; have := HM _ Pt; rewrite addrC subrK.
    by exists t; [exact: run_stop|].
  - case: (ltP `|f t| h) => Hf; first by exists t; [exact: run_stop|].
    have := Hc _ Pt. rewrite [s + _]addrC subrK => /(_ Hf) [Hq [Pn Hn]].
    have [|v Hv Pv] := IH (next_at f t) Pn.
    + apply: le_lt_trans Hm. apply: ler_wpmul2l => //. rewrite exprSr -mulrA. apply: ler_wpmul2l => //. exact: exprn_ge0.
    + exists v => //. exact: run_step.
Qed.

(** ** All starting points *)
Lemma searched_any js : exists found, [/\ @searched NX En misses_by [:: e] [::] [:: x] c js found,
  (forall w, List.In w found -> exists2 v, w = Scalar (Fin v : @T NX) & `|f v| < h) &
  forall j v, List.In j js -> runs 1000 (pt (of_Z F j)) (Found (pt v)) -> List.In (Scalar (Fin v : @T NX)) found].
Proof.
  elim: js => [|j js [found [H1 H2 H3]]]; first by exists [::]; split=> //; [constructor].
  have [z Hz Hc] := run_any 1000 (of_Z F j).
  case: Hc => [E|[v E Hv]]; subst z.
  - exists found. split; [exact: searched_lost|exact: H2|].
    move=> i v [<-|Hi]; last exact: H3. move=> Hr. have := @run_det NX En _ _ _ _ _ _ _ _ Hz Hr. by [].
  - exists (Scalar (Fin v : @T NX) :: found). split; [exact: (@searched_found NX En _ _ _ _ _ j js (pt v))| |].
    + move=> w [<-|Hw]; [by exists v|exact: H2].
    + move=> i u [<-|Hi] Hr; last by right; apply: H3 Hr.
      have := @run_det NX En _ _ _ _ _ _ _ _ Hz Hr => -[->]. by left.
Qed.

Lemma lt_asymX (a b : @T NX) : nltb a b = true -> nltb b a = false.
Proof.
  case: a => [a| | |]; case: b => [b| | |] //= H; apply/negbTE; rewrite -leNgt; exact: ltW.
Qed.
Lemma le_transX (a b d : @T NX) : nis_nan b = false -> nltb b a = false -> nltb d b = false -> nltb d a = false.
Proof.
  case: a => [a| | |]; case: b => [b| | |]; case: d => [d| | |] //= _ /negbT H1 /negbT H2; apply/negbTE.
  move: H1 H2. rewrite -!leNgt. exact: le_trans.
Qed.

(** What [eq] returns: the selection among everything found. *)
Lemma answer : exists vs found reps, outcomeX (AEq [:: e] [:: x]) c (Ok vs) /\ representatives found reps /\ selection reps vs /\
  (forall w, List.In w found -> exists2 v, w = Scalar (Fin v : @T NX) & `|f v| < h) /\
  (forall j v, Z.le (-1000) j -> Z.lt j 1000 -> runs 1000 (pt (of_Z F j)) (Found (pt v)) -> List.In (Scalar (Fin v : @T NX)) found).
Proof.
  have [found [H1 H2 H3]] := searched_any starting_numbers.
  have Hnd : List.NoDup [:: x] by constructor; [case|constructor].
  have Hund : undefined c [:: x] by move=> m v Hm Hv E; apply: Hdef; exists m, v.
  have Hc : is_choice 1 1 [:: 0%N] by split=> //; split; [repeat constructor|constructor=> //; exact: Nat.lt_0_succ].
  have Hfind : @finds NX En [:: e] [:: x] c [:: 0%N] found by exact: H1.
  have [f1 Hf1] := @finds_loops NX En [:: e] [:: x] c [:: 0%N] found Hnd Hund Hc Hfind.
  have [rest Hp] : @misses_by NX En (probe_context c [:: x]) e (Fin (f p)).
  { have := He p. by rewrite -Hprobe. }
  case: Hp => _ [f2 Hf2]. pose g := Nat.max f1 f2.
  have Hg1 : le f1 g by exact: Nat.le_max_l. have Hg2 : le f2 g by exact: Nat.le_max_r.
  have Hs := @solve_general NX En g [:: e] [:: x] c e [::] (Fin (f p)) rest erefl Hund (le_n 1) (Hf2 g Hg2).
  have Hch : @choices NX [:: e] [:: x] = [:: [:: 0%N]] by [].
  rewrite Hch in Hs. rewrite (@comb_loop_step NX En g [:: e] [:: x] c [:: 0%N] [::] Hc) (Hf1 g Hg1) in Hs.
  have [vs [Hvs Hne]] : exists vs, clean_results found = Ok vs /\ (found <> [::] -> vs <> [::]).
  { apply: clean_total.
    - move=> w /H2 [v -> _]. by exists (Fin v).
    - left=> w /H2 [v -> _]. by exists (Fin v). }
  have [Hr Hsel] := @clean_results_selection NX En lt_asymX le_transX found vs (fun w Hw => ltac:(by case: (H2 w Hw) => v -> _)) Hvs.
  exists vs, found, (dedupe found). split; last first.
  { split=> //; split=> //; split=> // j v Hj1 Hj2. apply: H3. rewrite -starts_integers. apply/List.in_map_iff.
    exists (Z.to_nat (j + 1000)). split; first lia. apply/List.in_seq. rewrite -[2000%N]/(Z.to_nat 2000). lia. }
  apply: (@solve_outcome NX En [:: e] [:: x] c (Ok vs) g) => //. rewrite Hs [bind _ _]/=. rewrite Hvs [bind _ _]/=.
  by case: (vs).
Qed.
End Search.

(** ** Quadratic functions *)
Definition factored (a s s' t : F) : F := a * (t - s) * (t - s').
Lemma factoredC a s s' t : factored a s s' t = factored a s' s t.
Proof. by rewrite /factored mulrAC. Qed.
Lemma factored_slope a s s' t : slope_at (factored a s s') t = a * ((t - s) + (t - s') + h).
Proof.
  rewrite /slope_at /factored. apply: (canLR (mulfK h_nz)). exact: (id_slope (F_ring F)).
Qed.
Lemma factored_next a s s' t : a != 0 -> (t - s) + (t - s') + h != 0 ->
  next_at (factored a s s') t - s = (t - s) * ((t - s) + h) / ((t - s) + (t - s') + h).
Proof.
  move=> Ha Hd. rewrite /next_at factored_slope /factored. set d := _ + _ + h in Hd *.
  rewrite -[a * _ * _]mulrA invfM mulrACA mulfV // mul1r addrAC.
  apply: (canRL (mulfK Hd)). rewrite mulrBl -[_ * _ * d^-1 * d]mulrA mulVf // mulr1 /d. exact: (id_next (F_ring F)).
Qed.
Lemma half_norm (u v d : F) : d != 0 -> 2%:R * `|v| <= `|d| -> `|u * v / d| <= 2%:R^-1 * `|u|.
Proof.
  move=> Hd H. rewrite !normrM normfV ler_pdivr_mulr ?normr_gt0 // [_ * `|u|]mulrC -mulrA. apply: ler_wpmul2l => //.
  by rewrite mulrC ler_pdivl_mulr ?ltr0n // mulrC.
Qed.

Section Two.
Variables (a s1 s2 : F).
Notation D := (s2 - s1).
Hypothesis Ha : a != 0.
Hypothesis HD : 7%:R * h <= D.
Lemma h_le_D : h <= D.
Proof. apply: le_trans HD. by rewrite ler_pmull ?h_pos // (ler_nat _ 1). Qed.
Lemma D_ge0 : 0 <= D. Proof. exact: le_trans (ltW h_pos) h_le_D. Qed.

(** From the right of the larger root. *)
Lemma right_step u : 0 <= u -> let t := s2 + u in
  [/\ slope_at (factored a s1 s2) t != 0, 0 <= next_at (factored a s1 s2) t - s2 & `|next_at (factored a s1 s2) t - s2| <= 2%:R^-1 * `|u|].
Proof.
  move=> Hu t. have Et2 : t - s2 = u by rewrite /t addrC addKr.
  have Et1 : t - s1 = u + D by rewrite /t [s2 + u]addrC -addrA.
  have Hn : next_at (factored a s1 s2) t = next_at (factored a s2 s1) t.
  { by rewrite /next_at /slope_at !(factoredC a s1 s2). }
  have Hd : 0 < u + (u + D) + h by apply: ltr_paddl h_pos; exact: addr_ge0 Hu (addr_ge0 Hu D_ge0).
  have Hd0 := lt0r_neq0 Hd.
  have Hn2 : next_at (factored a s1 s2) t - s2 = u * (u + h) / (u + (u + D) + h).
  { rewrite Hn factored_next //; rewrite Et2 Et1 //. }
  have Hs : slope_at (factored a s1 s2) t = a * (u + (u + D) + h) by rewrite factored_slope Et1 Et2 [u + D + u]addrC.
  split.
  - by rewrite Hs mulf_neq0.
  - rewrite Hn2. apply: divr_ge0 (ltW Hd). apply: mulr_ge0 => //. exact: addr_ge0 Hu (ltW h_pos).
  - rewrite Hn2. apply: half_norm => //. rewrite (ger0_norm (ltW Hd)) ger0_norm ?(addr_ge0 Hu (ltW h_pos)) //.
    rewrite -subr_ge0 -[2%:R]/(1 + 1 : F) (id_right (F_ring F)) subr_ge0. exact: h_le_D.
Qed.

(** From the left of the smaller root. *)
Lemma left_step u : u <= h -> let t := s1 + u in
  [/\ slope_at (factored a s1 s2) t != 0, (0 <= u -> next_at (factored a s1 s2) t - s1 <= 0), 
      next_at (factored a s1 s2) t - s1 <= h & `|next_at (factored a s1 s2) t - s1| <= 2%:R^-1 * `|u|].
Proof.
  move=> Hu t. have Et1 : t - s1 = u by rewrite /t addrC addKr.
  have Et2 : t - s2 = u - D by rewrite /t [s1 + u]addrC -addrA opprB.
  have Hd : 0 < - (u + (u - D) + h).
  { rewrite (id_left_d (F_ring F)). apply: ltr_paddl; first by rewrite subr_ge0; exact: HD.
    apply: ltr_paddl; first by apply: mulr_ge0; [exact: (ler0n F 2)|rewrite subr_ge0]. apply: mulr_gt0 h_pos. exact: (ltr0n F 4). }
  have Hd' : u + (u - D) + h < 0 by rewrite -oppr_gt0.
  have Hd0 := ltr0_neq0 Hd'.
  have Hn2 : next_at (factored a s1 s2) t - s1 = u * (u + h) / (u + (u - D) + h).
  { rewrite factored_next //; rewrite Et2 Et1 //. }
  have Hs : slope_at (factored a s1 s2) t = a * (u + (u - D) + h) by rewrite factored_slope Et1 Et2.
  have Hhalf : `|next_at (factored a s1 s2) t - s1| <= 2%:R^-1 * `|u|.
  { rewrite Hn2. apply: half_norm => //. rewrite (ltr0_norm Hd') -subr_ge0 -[2%:R]/(1 + 1 : F).
    case: (lerP 0 (u + h)) => H; rewrite ?(ger0_norm H) ?(ltr0_norm H).
    - rewrite (id_left_pos (F_ring F)). apply: addr_ge0; first by rewrite subr_ge0; exact: HD. apply: mulr_ge0; [exact: (ler0n F 4)|by rewrite subr_ge0].
    - rewrite (id_left_neg (F_ring F)). exact: addr_ge0 D_ge0 (ltW h_pos). }
  have Hneg v : 0 <= v -> v / (u + (u - D) + h) <= 0 by move=> Hv; apply: mulr_ge0_le0 => //; rewrite invr_le0 ltW.
  split; [by rewrite Hs mulf_neq0| | |exact: Hhalf].
  - move=> H0. rewrite Hn2. apply: Hneg. exact: mulr_ge0 H0 (addr_ge0 H0 (ltW h_pos)).
  - case: (lerP 0 (u + h)) => H.
    + apply: le_trans (ler_norm _) _. apply: le_trans Hhalf _.
      have Hle : `|u| <= h by rewrite ler_norml Hu andbT -subr_ge0 opprK.
      rewrite mulrC ler_pdivr_mulr ?ltr0n //. apply: le_trans Hle _. by rewrite ler_pmulr ?h_pos // ler1n.
    + rewrite Hn2. apply: le_trans (ltW h_pos). apply: Hneg. apply: mulr_le0; last exact: ltW.
      apply: ltW. apply: le_lt_trans H. by rewrite ler_addl (ltW h_pos).
Qed.
End Two.

Lemma prec_le13 : (@prec En <= 13)%N. Proof. by rewrite /prec; case: high_prec. Qed.
Lemma prec_ge2 : (2 <= @prec En)%N. Proof. by rewrite /prec; case: high_prec. Qed.
Lemma ten_two : 10%:R ^+ (208 + @prec En) < 2%:R ^+ 999 :> F.
Proof.
  apply: (@le_lt_trans _ _ ((2%:R ^+ 4) ^+ (208 + @prec En))).
  - apply: ler_expn2r; rewrite ?nnegrE ?exprn_ge0 ?ler0n //. by rewrite -natrX ler_nat.
  - rewrite -exprM ltr_eexpn2l ?(ltr_nat _ 1) //. have := prec_le13. lia.
Qed.
Lemma small_enough (a v : F) : `|a| <= 10%:R ^+ 200 -> 0 <= v -> v <= 2000%:R -> (`|a| * 2000%:R) * (2%:R^-1 ^+ 999 * v) < h.
Proof.
  move=> Ha Hv0 Hv. have H2 : 0 < 2%:R ^+ 999 :> F by rewrite exprn_gt0 // ltr0n.
  have H4 : 2000%:R <= 10%:R ^+ 4 :> F by rewrite -natrX ler_nat.
  have HX : `|a| * 2000%:R * v <= 10%:R ^+ 208.
  { rewrite -[208%N]/((200 + 4) + 4)%N !exprD.
    by rewrite !ler_pmul ?mulr_ge0 ?ler0n // (le_trans Hv). }
  rewrite exprVn [_^-1 * v]mulrC mulrA ltr_pdivr_mulr //. apply: le_lt_trans HX _.
  rewrite mulrC ltr_pdivl_mulr ?exprn_gt0 ?ltr0n // -exprD. exact: ten_two.
Qed.

(** ** Rounding to PREC - 2 decimals *)
Notation k := (10%:R ^+ (@prec En - 2) : F).
Lemma k_pos : 0 < k. Proof. by rewrite exprn_gt0 // ltr0n. Qed.
Lemma hk : 100%:R * h * k = 1.
Proof.
  have {1}-> : @prec En = (2 + (@prec En - 2))%N by have := prec_ge2; lia.
  have E : 100%:R = 10%:R ^+ 2 :> F by rewrite -natrX.
  have Hz m : 10%:R ^+ m != 0 :> F by rewrite expf_neq0 // ten_neq0.
  by rewrite exprD invfM E [_ * (_ * _)]mulrA mulfV // mul1r mulVf.
Qed.
Lemma same_fin (v w : F) : same_rounded (Scalar (Fin v : @T NX)) (Scalar (Fin w : @T NX)) = true <-> round_Z (v * k) = round_Z (w * k).
Proof.
  rewrite /same_rounded. have -> : Z.sub PREC 2 = Z.of_nat (@prec En - 2) by rewrite /PREC /prec; case: high_prec.
  rewrite /value_round !(round_num_fin L). cbn [value_eqb].
  rewrite -[neqb _ _]/(of_Z F (round_Z (v * k)) / k == of_Z F (round_Z (w * k)) / k).
  split=> [/eqP E|->]; last by rewrite eqxx.
  have {}E : of_Z F (round_Z (v * k)) = of_Z F (round_Z (w * k)) by apply: (divIf (lt0r_neq0 k_pos)).
  case: (Z.eq_dec (round_Z (v * k)) (round_Z (w * k))) => // /(@of_Z_apart F). by rewrite E subrr normr0 lt_geF // ltr01.
Qed.
Lemma same_close (v w : F) : round_Z (v * k) = round_Z (w * k) -> `|v - w| <= 100%:R * h.
Proof.
  move=> E. rewrite -(ler_pmul2r k_pos) hk -{1}(gtr0_norm k_pos) -normrM mulrBl.
  apply: le_trans (ler_dist_add (of_Z F (round_Z (v * k))) _ _) _. rewrite -[X in _ <= X](half_half F). apply: ler_add; first exact: round_Z_near.
  rewrite E distrC. exact: round_Z_near.
Qed.
Lemma of_Z_mono a b : Z.le a b -> of_Z F a <= of_Z F b.
Proof.
  move=> H. have -> : b = Z.add a (Z.of_nat (Z.to_nat (Z.sub b a))) by lia. by rewrite of_Z_add of_Z_nat ler_addl ler0n.
Qed.
(** At most two integers are closer than 1. *)
Lemma two_cells (z : F) : exists r r', forall q, `|z - of_Z F q| < 1 -> q = r \/ q = r'.
Proof.
  exists (round_Z z), (if of_Z F (round_Z z) <= z then Z.add (round_Z z) 1 else Z.sub (round_Z z) 1).
  have Hn := round_Z_near z. have Hn1 : `|z - of_Z F (round_Z z)| < 1 by apply: le_lt_trans Hn (half_lt1 F).
  move: (round_Z z) Hn Hn1 => r _ Hr q Hq.
  have far2 m n : Z.le (Z.add m 2) n -> `|z - of_Z F m| < 1 -> `|z - of_Z F n| < 1 -> False.
  { move=> Hmn H1 H2. have := of_Z_mono Hmn. rewrite of_Z_add leNgt => /negP; apply.
    have := le_lt_trans (ler_dist_add z (of_Z F n) (of_Z F m)) (ltr_add _ H1). rewrite distrC => /(_ _ H2).
    move/(le_lt_trans (ler_norm _)). rewrite ltr_subl_addl -[of_Z F 2]/(2%:R : F) -[1 + 1]/(2%:R : F). by []. }
  have Hcase : q = r \/ q = Z.add r 1 \/ q = Z.sub r 1.
  { case: (Z_le_gt_dec (Z.add r 2) q) => [H|H]; first by case: (far2 _ _ H Hr Hq).
    case: (Z_le_gt_dec (Z.add q 2) r) => [H'|H']; first by case: (far2 _ _ H' Hq Hr). lia. }
  case: Hcase => [->|[E|E]]; [by left| |].
  - case: ifP => Hle; first by right. exfalso. move: Hq. rewrite E of_Z_add distrC ltr_norml => /andP[_].
    rewrite -[of_Z F 1]/(1 : F) addrAC -[X in _ < X]add0r ltr_add2r subr_lt0 => /ltW H. by rewrite H in Hle.
  - case: ifP => Hle; last by right. exfalso. move: Hq. have -> : q = Z.add r (-1) by lia.
    rewrite of_Z_add ltr_norml => /andP[_]. rewrite -[of_Z F (-1)]/(-1 : F) opprD opprK addrA -[X in _ < X]add0r ltr_add2r subr_lt0.
    by rewrite ltNge Hle.
Qed.

(** The values found for a quadratic equation. *)
Lemma near_root (a s1 s2 w : F) : s1 <= s2 -> 1 <= `|a| * (s2 - s1) -> `|factored a s1 s2 w| < h ->
  `|w - s1| < 2%:R * h \/ `|w - s2| < 2%:R * h.
Proof.
  move=> H12 Ha Hf. case: (ltP `|w - s1| (2%:R * h)) => H1; first by left.
  case: (ltP `|w - s2| (2%:R * h)) => H2; first by right. exfalso.
  have HD : s2 - s1 <= `|w - s1| + `|w - s2|.
  { rewrite -[s2 - s1]ger0_norm ?subr_ge0 // distrC. apply: le_trans (ler_dist_add w _ _) _. by rewrite distrC. }
  move: Hf. rewrite /factored !normrM ltNge => /negP; apply.
  have Hgen x y : 2%:R * h <= x -> x <= y -> s2 - s1 <= x + y -> h <= `|a| * x * y.
  { move=> Hx Hxy Hs. have Hy : s2 - s1 <= 2%:R * y by rewrite mulr_natl mulr2n; apply: le_trans Hs _; rewrite ler_add2r.
    have Hx0 : 0 <= x by apply: le_trans Hx; rewrite mulr_ge0 ?ler0n ?(ltW h_pos).
    rewrite -(ler_pmul2l (_ : 0 < 2%:R)) ?ltr0n //.
    apply: (@le_trans _ _ (x * (`|a| * (s2 - s1)))); first by apply: le_trans Hx _; rewrite ler_pemulr.
    have -> : 2%:R * (`|a| * x * y) = x * (`|a| * (2%:R * y)).
    { by rewrite [`|a| * x]mulrC -!mulrA mulrCA [2%:R * (_ * y)]mulrCA. }
    apply: ler_wpmul2l => //. exact: ler_wpmul2l. }
  case: (lerP `|w - s1| `|w - s2|) => Hxy; first exact: Hgen.
  rewrite mulrAC. apply: Hgen => //; [exact: ltW|by rewrite [X in _ <= X]addrC].
Qed.
Definition cell (w : Value NX) : Z := match w with Scalar (Fin v) => round_Z (v * k) | _ => Z0 end.
Lemma cell_near (s v : F) : `|v - s| < 2%:R * h -> `|s * k - of_Z F (round_Z (v * k))| < 1.
Proof.
  move=> H. apply: le_lt_trans (ler_dist_add (v * k) _ _) _. rewrite -[X in _ < X](half_half F). apply: ltr_le_add; last exact: round_Z_near.
  rewrite distrC -mulrBl normrM (gtr0_norm k_pos). apply: lt_le_trans (_ : 2%:R * h * k <= _); first by rewrite ltr_pmul2r ?k_pos.
  rewrite -[2%:R^-1]mul1r ler_pdivl_mulr ?ltr0n // -[X in _ <= X]hk [_ * 2%:R]mulrC !mulrA ler_pmul2r ?k_pos // ler_pmul2r ?h_pos // -natrM ler_nat //.
Qed.
Lemma few (s1 s2 : F) found reps : representatives found reps ->
  (forall w, List.In w found -> exists2 v, w = Scalar (Fin v : @T NX) & `|v - s1| < 2%:R * h \/ `|v - s2| < 2%:R * h) ->
  le (List.length reps) 4.
Proof.
  move=> Hr Hf. have Hi := @representatives_incl NX En _ _ Hr. have Hd := @representatives_distinct NX En _ _ Hr.
  have [r1 [r1' H1]] := two_cells (s1 * k). have [r2 [r2' H2]] := two_cells (s2 * k).
  rewrite -(List.map_length cell). apply: (@List.NoDup_incl_length _ _ [:: r1; r1'; r2; r2']); last first.
  { move=> q /List.in_map_iff [w [<- /Hi /Hf [v -> Hv]]] /=.
    case: Hv => /cell_near => [/H1|/H2] [->|->]; by [left|right; left|right; right; left|right; right; right; left]. }
  have Hfin : forall w, List.In w reps -> exists v, w = Scalar (Fin v : @T NX) by move=> w /Hi /Hf [v -> _]; exists v.
  elim: {Hr Hi Hf} reps Hd Hfin => [|w reps IH] Hd Hfin; first by constructor.
  inversion Hd as [|? ? Hs Ha]; subst. constructor; last by apply: IH => // u Hu; apply: Hfin; right.
  move/List.in_map_iff => [u [Eu Hu]]. move/List.Forall_forall: Ha => /(_ u Hu).
  have [v Ev] := Hfin w (or_introl erefl). have [v' Ev'] := Hfin u (or_intror Hu).
  rewrite Ev Ev' in Eu *. by move/same_fin: Eu => /= ->.
Qed.

Lemma differ_ext (f g : F -> F) e x c : (forall t, f t = g t) -> differ_by f e x c -> differ_by g e x c.
Proof. move=> E H t. rewrite -E. exact: H. Qed.

(** ** C81 *)
(** If the equation stays at least 10^-PREC away from being satisfied, the
    answer is the empty list. *)
Theorem c81_no_solution (f : F -> F) (e : AST NX * AST NX) (x : str) (c : Ctx NX) (p : F) :
  differ_by f e x c -> ~ defined c [:: x] -> exact_sqrt -> x_probe L = Fin p ->
  (forall t, h <= `|f t|) -> outcomeX (AEq [:: e] [:: x]) c (Ok [::]).
Proof.
  move=> He Hd Hq Hp Hf. have [vs [found [reps [H1 [H2 [H3 [H4 _]]]]]]] := answer He Hd Hq Hp.
  have E : found = [::].
  { case: found H2 H4 => [//|w found] _ /(_ w (or_introl erefl)) [v _ H]. have := Hf v. by rewrite leNgt H. }
  rewrite E in H2. have Er : reps = [::].
  { case: reps H2 H3 => [//|w reps] H2 _. by have := @representatives_incl NX En _ _ H2 w (or_introl erefl). }
  rewrite Er in H3. case: H3 => [[_ E3]|[H _]]; [by rewrite -E3|by move: H; clear; rewrite /=; lia].
Qed.

(** If, around a point [s], in a region [P] (given by the distance [u] from [s])
    that contains a starting number [j], the step of the search leads closer to [s] by a
    factor [rho] and stays in the region, the search succeeds: a point [v] of the
    region is found, and the answer contains a solution that agrees with [v] up to
    rounding to PREC - 2 decimals - unless ten others are returned. *)
Theorem c81_converges (f : F -> F) (e : AST NX * AST NX) (x : str) (c : Ctx NX) (p : F) (s M rho : F) (P : F -> Prop) (j : Z) :
  differ_by f e x c -> ~ defined c [:: x] -> exact_sqrt -> x_probe L = Fin p ->
  Z.le (-1000) j -> Z.lt j 1000 -> P (of_Z F j - s) ->
  0 <= rho -> 0 <= M -> (forall u, P u -> `|f (s + u)| <= M * `|u|) ->
  (forall u, P u -> h <= `|f (s + u)| -> slope_at f (s + u) != 0 /\ P (next_at f (s + u) - s) /\ `|next_at f (s + u) - s| <= rho * `|u|) ->
  M * (rho ^+ 999 * `|of_Z F j - s|) < h ->
  exists vs, outcomeX (AEq [:: e] [:: x]) c (Ok vs) /\
    (List.length vs = 10%N \/ exists v w, P (v - s) /\ `|f v| < h /\ List.In (Scalar (Fin w : @T NX)) vs /\ `|f w| < h /\ `|v - w| <= 100%:R * h).
Proof.
  move=> He Hd Hq Hp Hj1 Hj2 Pj Hr HM0 HM Hc Hb.
  have [vs [found [reps [H1 [H2 [H3 [H4 H5]]]]]]] := answer He Hd Hq Hp.
  have [v Hv [Pv Fv]] := run_converges He Hq Hr HM Hc Pj HM0 Hb.
  have Hin := H5 j v Hj1 Hj2 Hv. exists vs. split=> //.
  case: H3 => [[_ E]|[_ [E _]]]; last by left. right.
  have [w [Hw Hs]] := @representatives_complete NX En found reps _ H2 Hin.
  have [w' Ew Fw] := H4 w (@representatives_incl NX En _ _ H2 w Hw).
  exists v, w'. rewrite E -Ew. do 4!(split=> //). subst w.
  case: Hs => [[->]|/same_fin Hs]; first by rewrite subrr normr0 mulr_ge0 ?ler0n ?(ltW h_pos).
  exact: same_close.
Qed.

(** A quadratic equation with two solutions [s1 < s2] between -1000 and 999, not
    too close to each other ([|a| (s2 - s1)] is the square root of the
    discriminant): both are found, up to 2 * 10^-PREC, and nothing else. *)
Theorem c81_quadratic (a b d s1 s2 : F) (e : AST NX * AST NX) (x : str) (c : Ctx NX) (p : F) :
  differ_by (fun t => a * t * t + b * t + d) e x c -> ~ defined c [:: x] -> exact_sqrt -> x_probe L = Fin p ->
  a * s1 * s1 + b * s1 + d = 0 -> a * s2 * s2 + b * s2 + d = 0 ->
  - 1000%:R <= s1 -> s2 <= 999%:R -> 104%:R * h <= s2 - s1 -> 1 <= `|a| * (s2 - s1) -> `|a| <= 10%:R ^+ 200 ->
  exists vs, [/\ outcomeX (AEq [:: e] [:: x]) c (Ok vs), le (List.length vs) 4,
    (forall v, List.In v vs -> exists2 t, v = Scalar (Fin t : @T NX) & `|t - s1| < 2%:R * h \/ `|t - s2| < 2%:R * h),
    exists2 t, List.In (Scalar (Fin t : @T NX)) vs & `|t - s1| < 2%:R * h &
    exists2 t, List.In (Scalar (Fin t : @T NX)) vs & `|t - s2| < 2%:R * h].
Proof.
  move=> He Hd Hq Hp R1 R2 H1000 H999 H104 Hdisc Hbig.
  have Hh := ltW h_pos.
  have H7 : 7%:R * h <= s2 - s1 by apply: le_trans H104; rewrite ler_pmul2r ?h_pos // ler_nat.
  have H12 : s1 <= s2 by rewrite -subr_ge0; exact: D_ge0 H7.
  have Hlt : s1 < s2 by rewrite -subr_gt0; apply: lt_le_trans h_pos (h_le_D H7).
  have Ha : a != 0 by apply/eqP => E; move: Hdisc; rewrite E normr0 mul0r lt_geF // ltr01.
  have Hsum : b + a * (s1 + s2) = 0.
  { have := id_roots (F_ring F) a b d s1 s2. rewrite R1 R2 subr0 => /esym/eqP. rewrite mulf_eq0 subr_eq0 (lt_eqF Hlt) orbF. by move/eqP. }
  have {}He : differ_by (factored a s1 s2) e x c.
  { apply: differ_ext He => t. by rewrite (id_factor (F_ring F) a b d s1 s2 t) R1 Hsum mul0r !addr0. }
  have [vs [found [reps [H1 [H2 [H3 [H4 H5]]]]]]] := answer He Hd Hq Hp.
  have Hfound : forall w, List.In w found -> exists2 v, w = Scalar (Fin v : @T NX) & `|v - s1| < 2%:R * h \/ `|v - s2| < 2%:R * h.
  { move=> w /H4 [v -> Hv]. exists v => //. exact: near_root H12 Hdisc Hv. }
  have H4reps := few H2 Hfound.
  have Evs : vs = reps by case: H3 => [[_ //]|[H _]]; move: H H4reps; clear; lia.
  subst vs. have Hi := @representatives_incl NX En _ _ H2.
  (* the value returned for a value found near a root *)
  have Hnear s v : (s = s1 \/ s = s2) -> List.In (Scalar (Fin v : @T NX)) found -> `|v - s| < 2%:R * h ->
    exists2 t, List.In (Scalar (Fin t : @T NX)) reps & `|t - s| < 2%:R * h.
  { move=> Hs Hin Hv. have [w [Hw Hsame]] := @representatives_complete NX En found reps _ H2 Hin.
    have [t Et Ht] := Hfound w (Hi w Hw). subst w. exists t => //.
    have Hclose : `|v - t| <= 100%:R * h.
    { case: Hsame => [[->]|/same_fin]; [by rewrite subrr normr0 mulr_ge0 ?ler0n|exact: same_close]. }
    have Hfar s' : `|s' - s| = s2 - s1 -> `|t - s'| < 2%:R * h -> False.
    { move=> Es Hts. have := H104. rewrite -Es leNgt => /negP; apply.
      apply: le_lt_trans (ler_dist_add t _ _) _. rewrite [`|s' - t|]distrC.
      apply: lt_le_trans (_ : 2%:R * h + (100%:R * h + 2%:R * h) <= _); last by rewrite -!mulrDl -!natrD.
      apply: ltr_le_add Hts _. apply: le_trans (ler_dist_add v _ _) _. rewrite [`|t - v|]distrC. apply: ler_add Hclose (ltW Hv). }
    case: Hs Hv Hfar => -> Hv Hfar; case: Ht => // Ht; exfalso.
    - apply: (Hfar s2) => //. by rewrite ger0_norm // subr_ge0.
    - apply: (Hfar s1) => //. by rewrite distrC ger0_norm // subr_ge0. }
  have Hhalf : 0 <= 2%:R^-1 :> F by rewrite invr_ge0 ler0n.
  have HM0 : 0 <= `|a| * 2000%:R by rewrite mulr_ge0 ?ler0n.
  exists reps. split=> //; first by move=> v /Hi /Hfound.
  - (* the smaller root, from -1000 *)
    pose P u := u <= h /\ - 1001%:R <= s1 + u.
    have HM u : P u -> `|factored a s1 s2 (s1 + u)| <= `|a| * 2000%:R * `|u|.
    { move=> [Hu1 Hu2]. rewrite /factored !normrM [s1 + u - s1]addrAC subrr add0r -!mulrA. apply: ler_wpmul2l => //.
      rewrite mulrC. apply: ler_wpmul2r => //. rewrite distrC ger0_norm.
      - rewrite ler_subl_addl. apply: le_trans H999 _. rewrite -[2000%N]/(1001 + 999)%N natrD addrA -{1}[999%:R]add0r ler_add2r.
        by rewrite -ler_subl_addr sub0r.
      - rewrite subr_ge0. apply: le_trans (_ : s1 + h <= _); first by rewrite ler_add2l.
        rewrite addrC -ler_subr_addr. exact: h_le_D H7. }
    have Hc u : P u -> h <= `|factored a s1 s2 (s1 + u)| -> slope_at (factored a s1 s2) (s1 + u) != 0 /\
      P (next_at (factored a s1 s2) (s1 + u) - s1) /\ `|next_at (factored a s1 s2) (s1 + u) - s1| <= 2%:R^-1 * `|u|.
    { move=> [Hu1 Hu2] _. have [G1 _ G2 G3] := left_step Ha H7 Hu1. split=> //; split=> //; split=> //.
      have := G3. rewrite ler_norml => /andP[G4 _]. apply: le_trans (_ : s1 - 2%:R^-1 * `|u| <= _); last by rewrite ler_add2l.
      case: (lerP 0 u) => Hu0.
      - rewrite -[1001%N]/(1000 + 1)%N natrD opprD. apply: ler_add H1000 _. rewrite ler_opp2 (ger0_norm Hu0).
        apply: le_trans (_ : 1 * 1 <= _); last by rewrite mulr1. apply: ler_pmul => //; first exact: ltW (half_lt1 F).
        apply: le_trans Hu1 _. by rewrite -exprVn exprn_ile1 ?invr_ge0 ?ler0n // invf_le1 ?ltr0n // ler1n.
      - apply: le_trans Hu2 _. rewrite ler_add2l ltr0_norm // mulrN opprK ler_nmull //. exact: ltW (half_lt1 F). }
    have Pj : P (of_Z F (-1000) - s1).
    { split; first by apply: le_trans Hh; rewrite subr_le0. rewrite addrC subrK -[of_Z F (-1000)]/(- 1000%:R : F) ler_opp2 ler_nat //. }
    have Hb : `|a| * 2000%:R * (2%:R^-1 ^+ 999 * `|of_Z F (-1000) - s1|) < h.
    { apply: small_enough => //. rewrite distrC -[of_Z F (-1000)]/(- 1000%:R : F) opprK ger0_norm.
      - rewrite -[2000%N]/(1000 + 1000)%N natrD ler_add2r. apply: le_trans (le_trans H12 H999) _. by rewrite ler_nat.
      - by rewrite -[1000%:R]opprK subr_ge0. }
    have [v Hv [[Pv _] Fv]] := run_converges He Hq Hhalf HM Hc Pj HM0 Hb.
    have Hin := H5 (Z.opp (Zpos 1000)) v (Z.le_refl _) erefl Hv.
    apply: (Hnear s1 v (or_introl erefl) Hin). have [v' [<-] [//|Hv2]] := Hfound _ Hin. exfalso.
    have := H104. rewrite leNgt => /negP; apply.
    apply: lt_le_trans (_ : 2%:R * h + 1 * h <= _); last by rewrite -mulrDl ler_pmul2r ?h_pos // -[1]/(1%:R) -natrD ler_nat.
    rewrite -[s2 - s1](subrKA v). apply: ltr_le_add; last by rewrite mul1r.
    apply: le_lt_trans (ler_norm _) _. by rewrite distrC.
  - (* the larger root, from 999 *)
    pose P u := 0 <= u /\ s2 + u <= 999%:R.
    have HM u : P u -> `|factored a s1 s2 (s2 + u)| <= `|a| * 2000%:R * `|u|.
    { move=> [Hu1 Hu2]. rewrite /factored !normrM [s2 + u - s2]addrAC subrr add0r. apply: ler_wpmul2r => //. apply: ler_wpmul2l => //.
      rewrite ger0_norm.
      - rewrite -[2000%N]/(1000 + 1000)%N natrD. apply: ler_add; first by apply: le_trans Hu2 _; rewrite ler_nat.
        by rewrite ler_oppl.
      - rewrite subr_ge0. apply: le_trans H12 _. by rewrite ler_addl. }
    have Hc u : P u -> h <= `|factored a s1 s2 (s2 + u)| -> slope_at (factored a s1 s2) (s2 + u) != 0 /\
      P (next_at (factored a s1 s2) (s2 + u) - s2) /\ `|next_at (factored a s1 s2) (s2 + u) - s2| <= 2%:R^-1 * `|u|.
    { move=> [Hu1 Hu2] _. have [G1 G2 G3] := right_step Ha H7 Hu1. split=> //; split=> //; split=> //.
      apply: le_trans Hu2. rewrite ler_add2l. apply: le_trans (ler_norm _) _. apply: le_trans G3 _.
      rewrite (ger0_norm Hu1) ler_pimull //. exact: ltW (half_lt1 F). }
    have Pj : P (of_Z F 999 - s2).
    { split; first by rewrite subr_ge0. by rewrite addrC subrK. }
    have Hb : `|a| * 2000%:R * (2%:R^-1 ^+ 999 * `|of_Z F 999 - s2|) < h.
    { apply: small_enough => //. rewrite -[of_Z F 999]/(999%:R : F) ger0_norm ?subr_ge0 //.
      rewrite -[2000%N]/(1000 + 1000)%N natrD. apply: ler_add; first by rewrite ler_nat. rewrite ler_oppl. exact: le_trans H1000 H12. }
    have [v Hv [[Pv _] Fv]] := run_converges He Hq Hhalf HM Hc Pj HM0 Hb.
    have L1 : Z.le (-1000) (Zpos 999) by [].
    have L2 : Z.lt (Zpos 999) 1000 by [].
    have Hin := H5 (Zpos 999) v L1 L2 Hv.
    apply: (Hnear s2 v (or_intror erefl) Hin). have [v' [<-] [Hv2|//]] := Hfound _ Hin. exfalso.
    have := H104. rewrite leNgt => /negP; apply.
    apply: lt_le_trans (_ : 2%:R * h <= _); last by rewrite ler_pmul2r ?h_pos // ler_nat.
    apply: le_lt_trans Hv2. apply: le_trans (_ : v - s1 <= _); last exact: ler_norm. rewrite ler_add2r -subr_ge0. exact: Pv.
Qed.
End Roots.

(** ** Concrete cases: the rational numbers *)
Module Examples.
Section Examples.
Context {En : Env}.
Notation Q := [archiFieldType of rat].
(** The square root of a quotient of squares. *)
Definition root_rat (q : Q) : Q := (Nat.sqrt `|numq q|)%:R / (Nat.sqrt `|denq q|)%:R.
Lemma root_square (t : Q) : root_rat (t ^+ 2) = `|t|.
Proof.
  have Et : t = (numq t)%:~R / (denq t)%:~R by rewrite divq_num_den.
  have E : t ^+ 2 = (numq t ^+ 2)%:~R / (denq t ^+ 2)%:~R by rewrite [in LHS]Et expr_div_n !rmorphX.
  have C : coprime `|numq t ^+ 2| `|denq t ^+ 2| by rewrite !abszX coprimeXl // coprimeXr // coprime_num_den.
  have Hd : 0 < denq t ^+ 2 by rewrite exprn_gt0 // denq_gt0.
  have En' : `|numq (t ^+ 2)|%N = (`|numq t| * `|numq t|)%N by rewrite E coprimeq_num // gtr0_sg // mul1r abszX expnS expn1.
  have Ed' : `|denq (t ^+ 2)|%N = (`|denq t| * `|denq t|)%N.
  { rewrite E coprimeq_den //. have -> : (denq t ^+ 2 == 0) = false by apply/negbTE; rewrite expf_neq0 // denq_neq0.
    by rewrite gtr0_norm // abszX expnS expn1. }
  have S n : Nat.sqrt (n * n) = n by rewrite -multE Nat.sqrt_square.
  rewrite /root_rat En' Ed' !S {3}Et normrM normfV !natr_absz.
  by rewrite !intr_norm.
Qed.
Definition L2 : lib Q :=
  {| x_sqrt := fun v => match v with Fin t => Fin (root_rat t) | v => v end; x_powf := fun a _ => a; x_sin := id; x_cos := id; x_tan := id;
     x_asin := id; x_acos := id; x_atan := id; x_ln := id;
     x_probe := Fin 0; x_pi := NaN; x_e := NaN; x_parse := fun _ => None; x_show := fun _ => nil; x_show_sci := fun _ => nil |}.
Notation NX := (Exact L2).
Definition X : str := lit "x".
Definition ctx0 : Ctx NX := mkCtx nil nil.
Lemma L2_sqrt : exact_sqrt L2.
Proof. move=> t. by rewrite /= root_square. Qed.
Lemma free : ~ @defined NX ctx0 [:: X].
Proof. by move=> [n [v [_ []]]]. Qed.
(** [x * x = r] *)
Definition square_is (r : Q) : AST NX * AST NX := (AOp OMult (AVar X) (AVar X), AScalar (Fin r : @T NX)).
Lemma square_differ r : @differ_by En Q L2 (fun t => 1 * t * t + 0 * t + - r) (square_is r) X ctx0.
Proof.
  move=> t. exists nil.
  have V := @var_outcome NX En nil (set_num ctx0 X (Fin t : @T NX)) X.
  have H : @outcome NX En (fst (square_is r)) (set_num ctx0 X (Fin t : @T NX)) (Ok [:: sca L2 (t * t)])
    by apply: (@op_outcome_grid NX En nil _ OMult (AVar X) (AVar X) _ _ V V).
  have H' := @op_outcome_grid NX En nil _ OSub (fst (square_is r)) (snd (square_is r)) [:: sca L2 (t * t)] [:: sca L2 r] H (@scalar_outcome NX En nil _ _).
  have -> : 1 * t * t + 0 * t + - r = t * t + r * (-1) by rewrite mulrN1 mul1r mul0r addr0.
  by apply: H'.
Qed.
Lemma h_small : 104%:R * 10%:R ^- @prec En <= 4%:R :> Q.
Proof.
  rewrite ler_pdivr_mulr ?exprn_gt0 ?ltr0n //. apply: le_trans (_ : 4%:R * 10%:R ^+ 2 <= _); first by [].
  rewrite ler_pmul2l ?ltr0n // ler_eexpn2l ?prec_ge2 // ltr1n //.
Qed.
Notation h := (10%:R ^- @prec En : Q).
(** [x * x = 4]: at most four values, all within [2 * 10^-PREC] of 2 or -2, one near each. *)
Example two_roots : exists vs, [/\ @outcome NX En (AEq [:: square_is 4%:R] [:: X]) ctx0 (Ok vs), le (List.length vs) 4,
    (forall v, List.In v vs -> exists2 t, v = Scalar (Fin t : @T NX) & `|t + 2%:R| < 2%:R * h \/ `|t - 2%:R| < 2%:R * h),
    exists2 t, List.In (Scalar (Fin t : @T NX)) vs & `|t + 2%:R| < 2%:R * h &
    exists2 t, List.In (Scalar (Fin t : @T NX)) vs & `|t - 2%:R| < 2%:R * h].
Proof.
  have R1 : 1 * - 2%:R * - 2%:R + 0 * - 2%:R + - 4%:R = 0 :> Q by rewrite mul1r mulrNN mul0r addr0 -natrM subrr.
  have R2 : 1 * 2%:R * 2%:R + 0 * 2%:R + - 4%:R = 0 :> Q by rewrite mul1r mul0r addr0 -natrM subrr.
  have B1 : - 1000%:R <= - 2%:R :> Q by rewrite ler_opp2 ler_nat.
  have B2 : 2%:R <= 999%:R :> Q by rewrite ler_nat.
  have E4 : 2%:R - - 2%:R = 4%:R :> Q by rewrite opprK -natrD.
  have B3 : 104%:R * h <= 2%:R - - 2%:R by rewrite E4; exact: h_small.
  have B4 : 1 <= `|1| * (2%:R - - 2%:R) :> Q by rewrite E4 normr1 mul1r ler1n.
  have B5 : `|1| <= 10%:R ^+ 200 :> Q by rewrite normr1; apply: exprn_ege1; rewrite ler1n.
  have [vs [H1 H2 H3 [t H4 H4'] H5]] := @c81_quadratic En Q L2 1 0 (- 4%:R) (- 2%:R) 2%:R _ _ _ 0 (@square_differ 4%:R) free L2_sqrt erefl R1 R2 B1 B2 B3 B4 B5.
  exists vs. split; [exact: H1|exact: H2| | |exact: H5].
  - move=> v Hv. have [w Ew Hw] := H3 v Hv. exists w; first exact: Ew. rewrite opprK in Hw. exact: Hw.
  - exists t; first exact: H4. rewrite opprK in H4'. exact: H4'.
Qed.
(** [x * x = -1] has no solution. *)
Example no_root : @outcome NX En (AEq [:: square_is (-1)] [:: X]) ctx0 (Ok [::]).
Proof.
  apply: (@c81_no_solution En Q L2 _ _ _ _ 0 (@square_differ (-1)) free L2_sqrt erefl) => t.
  rewrite mul1r mul0r addr0 opprK. apply: le_trans (ler_norm _). apply: le_trans (_ : 1 <= _).
  - by rewrite -exprVn exprn_ile1.
  - by rewrite ler_addr -expr2 sqr_ge0.
Qed.
End Examples.
End Examples.
