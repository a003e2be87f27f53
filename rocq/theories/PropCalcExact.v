(** * PropCalcExact: C29 and C31 in exact arithmetic. *)
From Coq Require Import ZArith Lia List String Ring_theory Ring.
Set Warnings "-notation-overridden,-ambiguous-paths".
From mathcomp Require Import all_ssreflect all_algebra zify.
From Verif Require Import Base BaseFacts F64 Num Types Maths Parser Eval SpecEval EvalProofs CalcSpec CalcProofs PropEval PropCalc
  Exact ExactSpec ExactLinear ExactRound PropExact.
Import GRing.Theory Order.Theory mathcomp.algebra.ssrnum.Num.Theory.
Set Implicit Arguments.
Unset Strict Implicit.
Unset Printing Implicit Defensive.
Local Open Scope ring_scope.

Section Identities.
Variables (R : Type) (rO rI : R) (radd rmul rsub : R -> R -> R) (ropp : R -> R).
Hypothesis RT : ring_theory rO rI radd rmul rsub ropp eq.
Add Ring Rring : RT.
Local Infix "+" := radd. Local Infix "*" := rmul. Local Infix "-" := rsub.
Lemma linear_sum (m n a N S e : R) : S + S = N * N - N ->
  (e + e) * (m * (N * a + (S * (e + e) - N * e)) + N * n) =
  m * (a * N * (e + e) + N * N * (e + e) * e) + n * (N * (e + e)) - m * (N * (e + e)) * (e + e).
Proof. intros H. replace (S * (e + e)) with ((S + S) * e) by ring. rewrite H. ring. Qed.
Lemma nat_sum_step (N : R) : N * N - N + (N + N) = (N + rI) * (N + rI) - (N + rI).
Proof. ring. Qed.
Lemma square_sum (a N e h : R) :
  ((a + N * (e + e)) * (a + N * (e + e)) - a * a) * h = a * (h + h) * N * (e + e) + N * N * (e + e) * (e * (h + h)).
Proof. ring. Qed.
End Identities.

Section Props.
Context {En : Env}.
Variables (F : archiFieldType) (L : lib F).
Notation NX := (Exact L).
Notation outcomeX := (@outcome NX En).

(** The number of samples: 10^(PREC-3), that is 100000 (or 10^10 with the
    feature high-prec). *)
Definition prec : nat := if high_prec then 13%N else 8%N.
Definition samples : nat := expn 10 (prec - 3).
(** The width of a strip and the [k]-th sample. *)
Definition strip (a b : F) : F := (b - a) / samples%:R.
Definition point (a b : F) (k : nat) : F := a + (k%:R - 2%:R^-1) * strip a b.

Lemma samples_pos : (0 < samples)%N. Proof. by rewrite /samples expn_gt0. Qed.
Lemma samples_neq0 : samples%:R != 0 :> F. Proof. by rewrite pnatr_eq0 -lt0n samples_pos. Qed.
Lemma PREC_prec : PREC = Z.of_nat prec.
Proof. by rewrite /PREC /prec; case: high_prec. Qed.
Lemma PREC_prec3 : Z.sub PREC 3 = Z.of_nat (prec - 3).
Proof. by rewrite /PREC /prec; case: high_prec. Qed.
Lemma width_strip (a b : F) : @width NX En (Fin a) (Fin b) = Fin (strip a b).
Proof.
  rewrite /width PREC_prec3 pow10_nat -[@nsub NX (Fin b) (Fin a)]/(Fin (b - a)) (div_fin L).
  - by rewrite /strip /samples natrX.
  - by rewrite expf_neq0 // ten_neq0.
Qed.
Lemma step_h_fin : @step_h NX En = Fin (10%:R ^- prec).
Proof. by rewrite /step_h PREC_prec pow10_neg. Qed.

Lemma strip_sum a b : a + samples%:R * strip a b = b.
Proof. by rewrite /strip mulrCA mulfV ?samples_neq0 // mulr1 addrC subrK. Qed.
Lemma visits_from (a b : F) n k : a < b -> (n + k = samples)%N ->
  @visits NX (Fin (strip a b)) (Fin b) (Fin (a + k%:R * strip a b)) [seq Fin (a + i%:R * strip a b) | i <- iota k n].
Proof.
  move=> Hab. have Hd : 0 < strip a b by rewrite /strip divr_gt0 ?subr_gt0 // ltr0n samples_pos.
  elim: n k => [|n IH] k /= Hk.
  - apply: V_end => /=. by rewrite -{2}(strip_sum a b) -Hk add0n ltxx.
  - apply: V_step => /=.
    + by rewrite -{2}(strip_sum a b) ltr_add2l ltr_pmul2r // ltr_nat -Hk; lia.
    + have := IH k.+1. rewrite addnS => /(_ Hk). by rewrite natS mulrDl mul1r addrA.
Qed.
Lemma sample_point a b k : @sample NX (Fin (strip a b)) (Fin (a + k%:R * strip a b)) = Fin (point a b k).
Proof.
  rewrite /sample. set d := strip a b. set p := a + _.
  rewrite -[LHS]/(@ndiv NX (Fin (p + (p - d))) (Fin 2%:R)) (div_fin L) ?pnatr_eq0 // /point -/d. congr Fin.
  have -> : p + (p - d) = 2%:R * p - d by rewrite (_ : 2%:R = 1 + 1) // mulrDl mul1r addrA.
  rewrite mulrBl mulrAC mulfV ?pnatr_eq0 // mul1r /p mulrBl addrA. congr (_ - _). exact: mulrC.
Qed.
Lemma fold_list (l : seq F) s : List.fold_left (@nadd NX) [seq Fin x | x <- l] (Fin s) = Fin (s + \sum_(x <- l) x).
Proof. elim: l s => [|x l IH] s /=; first by rewrite big_nil addr0. by rewrite IH big_cons addrA. Qed.

(** ** C29 *)
(** The integral is [dx] times the sum of the values of the integrand at the
    10^(PREC-3) points [a + (k - 1/2) dx], whatever the order of the bounds. *)
Lemma exact_sum (e la lb : AST NX) x a b c (f : nat -> F) : a < b ->
  distinct_names c ->
  outcomeX la c (Ok [:: sca L a]) -> outcomeX lb c (Ok [:: sca L b]) ->
  (forall k, (k < samples)%N -> outcomeX e (set_num c x (Fin (point a b k) : @T NX)) (Ok [:: sca L (f k)])) ->
  outcomeX (AInt e x la lb) c (Ok [:: sca L (strip a b * \sum_(k < samples) f k)]).
Proof.
  move=> Hab Hc Ha Hb Hf.
  have Hps := @visits_from a b samples 0 Hab (addn0 _). rewrite mul0r addr0 in Hps.
  case Es : samples samples_pos Hf Hps => [//|n] _ Hf Hps.
  have H := @c29_sum_of_samples NX En e la lb x (Fin a) (Fin b) c _ (Fin (f 0%N)) [seq Fin (f i) | i <- iota 1 n] Hc Ha Hb.
  rewrite width_strip in H. have {H} := H _ (lt_eqF Hab) (lt_gtF Hab) Hps.
  have -> : @nmul NX (List.fold_left (@nadd NX) [seq Fin (f i) | i <- iota 1 n] (Fin (f 0%N))) (Fin (strip a b))
          = Fin (strip a b * \sum_(k < n.+1) f k).
  { rewrite [map _ _](_ : _ = [seq Fin x | x <- [seq f i | i <- iota 1 n]]); last by rewrite -map_comp.
    rewrite fold_list big_map mulrC. congr (Fin (_ * _)).
    by rewrite -(big_mkord xpredT f) /index_iota subn0 /= big_cons. }
  apply. rewrite -[Fin (f 0%N) :: _]/[seq Fin (f i) | i <- iota 0 n.+1].
  have : forall k, k \in iota 0 n.+1 -> (k < n.+1)%N by move=> k; rewrite mem_iota.
  elim: (iota 0 n.+1) => [|k l IH] Hl; first by constructor. rewrite !map_cons.
  apply: Forall2_cons; last by apply: IH => i Hi; apply: Hl; rewrite inE Hi orbT.
  rewrite sample_point. apply: Hf. apply: Hl. by rewrite inE eqxx.
Qed.

(** The integral is [dx] times the sum of the values of the integrand at the
    10^(PREC-3) points [a + (k - 1/2) dx], [k = 0, 1, ...]; exchanging the bounds
    gives the same number, not its opposite. *)
Theorem c29_exact_sum (e la lb : AST NX) x a b c (f : nat -> F) : a < b ->
  distinct_names c ->
  outcomeX la c (Ok [:: sca L a]) -> outcomeX lb c (Ok [:: sca L b]) ->
  (forall k, (k < samples)%N -> outcomeX e (set_num c x (Fin (point a b k) : @T NX)) (Ok [:: sca L (f k)])) ->
  outcomeX (AInt e x la lb) c (Ok [:: sca L (strip a b * \sum_(k < samples) f k)]) /\
  outcomeX (AInt e x lb la) c (Ok [:: sca L (strip a b * \sum_(k < samples) f k)]).
Proof.
  move=> Hab Hc Ha Hb Hf. have H := exact_sum Hab Hc Ha Hb Hf. split=> //.
  apply/(@swapped_comparable NX En e la lb x (Fin a) (Fin b) c) => //=; [exact: lt_eqF|exact: gt_eqF|exact: lt_gtF].
Qed.

(** A constant integrand: exactly [k (b - a)]. *)
Theorem c29_constant (e la lb : AST NX) x a b c (k : F) : a < b ->
  distinct_names c ->
  outcomeX la c (Ok [:: sca L a]) -> outcomeX lb c (Ok [:: sca L b]) ->
  (forall s : F, outcomeX e (set_num c x (Fin s : @T NX)) (Ok [:: sca L k])) ->
  outcomeX (AInt e x la lb) c (Ok [:: sca L (k * (b - a))]).
Proof.
  move=> Hab Hc Ha Hb Hf. have [H _] := c29_exact_sum Hab Hc Ha Hb (fun i (_ : (i < samples)%N) => Hf (point a b i)).
  move: H. rewrite sumr_const card_ord /strip -[k *+ _]mulr_natr [k * _]mulrC mulrA divfK ?samples_neq0 // [k * _]mulrC. exact.
Qed.

Lemma sum_nat n : \sum_(k < n) k%:R + \sum_(k < n) k%:R = n%:R * n%:R - n%:R :> F.
Proof.
  elim: n => [|n IH]; first by rewrite !big_ord0 mul0r subr0 addr0.
  rewrite !big_ord_recr /= addrACA IH natS. exact: (nat_sum_step (F_ring F)).
Qed.
(** A linear integrand [m x + n]: the exact integral [m (b^2 - a^2) / 2 + n (b - a)],
    minus [m (b - a) dx]: the samples are one strip too far left of the middle. *)
Theorem c29_linear (e la lb : AST NX) x a b c (m n : F) : a < b ->
  distinct_names c ->
  outcomeX la c (Ok [:: sca L a]) -> outcomeX lb c (Ok [:: sca L b]) ->
  (forall s : F, outcomeX e (set_num c x (Fin s : @T NX)) (Ok [:: sca L (m * s + n)])) ->
  outcomeX (AInt e x la lb) c (Ok [:: sca L (m * ((b ^+ 2 - a ^+ 2) / 2%:R) + n * (b - a) - m * (b - a) * strip a b)]).
Proof.
  move=> Hab Hc Ha Hb Hf. have [H _] := c29_exact_sum Hab Hc Ha Hb (fun i (_ : (i < samples)%N) => Hf (point a b i)).
  move: H. congr (outcomeX _ _ (Ok [:: sca L _])).
  set d := strip a b. set h := 2%:R^-1 : F. set e' := d * h.
  have Ed : d = e' + e' by rewrite /e' -mulrDr half_half mulr1.
  have Eb : b = a + samples%:R * (e' + e') by rewrite -Ed strip_sum.
  have -> : \sum_(k < samples) (m * point a b k + n) =
            m * (samples%:R * a + ((\sum_(k < samples) k%:R) * (e' + e') - samples%:R * e')) + samples%:R * n.
  { rewrite big_split /= -mulr_sumr sumr_const card_ord [samples%:R * n]mulr_natl. congr (_ * _ + _).
    rewrite /point big_split /= sumr_const card_ord [samples%:R * a]mulr_natl. congr (_ + _).
    rewrite -mulr_suml sumrB sumr_const card_ord -/d mulrBl -Ed. congr (_ - _). by rewrite -mulr_natl -mulrA [h * d]mulrC ?mulr_natl. }
  rewrite Ed (linear_sum (F_ring F)); last by rewrite sum_nat.
  rewrite Eb !expr2 [X in m * X + _ - _](square_sum (F_ring F)) half_half !mulr1. congr (_ + _ - _).
  all: by rewrite [a + _ - a]addrAC subrr add0r.
Qed.

(** ** C31 *)
(** The difference quotient of a scalar function, with [h = 10^-PREC]. *)
Theorem c31_exact_quotient (e at_ : AST NX) x (s y yh : F) c :
  outcomeX at_ c (Ok [:: sca L s]) ->
  outcomeX e (set_num c x (Fin s : @T NX)) (Ok [:: sca L y]) ->
  outcomeX e (set_num c x (Fin (s + 10%:R ^- prec) : @T NX)) (Ok [:: sca L yh]) ->
  outcomeX (ADer e x at_) c (Ok [:: sca L ((yh - y) / 10%:R ^- prec)]).
Proof.
  move=> Ha H1 H2. have := @c31_scalar_function NX En e at_ x (Fin s) c (Fin y) (Fin yh) Ha H1.
  rewrite step_h_fin. rewrite -[@nadd NX (Fin s) _]/(Fin (s + 10%:R ^- prec)) -[@nadd NX (Fin yh) _]/(Fin (yh + y * (-1))).
  rewrite (div_fin L) ?invr_eq0 ?expf_neq0 ?ten_neq0 // mulrN1. exact.
Qed.
(** A linear function has the right derivative; that of [x^2] is off by [h]. *)
Theorem c31_linear (e at_ : AST NX) x (s m n : F) c :
  outcomeX at_ c (Ok [:: sca L s]) ->
  (forall t : F, outcomeX e (set_num c x (Fin t : @T NX)) (Ok [:: sca L (m * t + n)])) ->
  outcomeX (ADer e x at_) c (Ok [:: sca L m]).
Proof.
  move=> Ha H. have := c31_exact_quotient Ha (H s) (H (s + 10%:R ^- prec)).
  rewrite opprD addrACA subrr addr0 -mulrBr addrAC subrr add0r mulfK //. by rewrite invr_eq0 expf_neq0 // ten_neq0.
Qed.
Theorem c31_square (e at_ : AST NX) x (s : F) c :
  outcomeX at_ c (Ok [:: sca L s]) ->
  (forall t : F, outcomeX e (set_num c x (Fin t : @T NX)) (Ok [:: sca L (t ^+ 2)])) ->
  outcomeX (ADer e x at_) c (Ok [:: sca L (2%:R * s + 10%:R ^- prec)]).
Proof.
  move=> Ha H. have := c31_exact_quotient Ha (H s) (H (s + 10%:R ^- prec)).
  rewrite subr_sqr [s + _ - s]addrAC subrr add0r mulrAC mulfV ?mul1r; last by rewrite invr_eq0 expf_neq0 // ten_neq0.
  by rewrite addrAC (_ : 2%:R = 1 + 1) // mulrDl !mul1r.
Qed.
End Props.

(** ** Concrete cases, for every field and every environment *)
Module Examples.
Section Examples.
Context {En : Env}.
Variables (F : archiFieldType) (L : lib F).
Notation NX := (Exact L).
Definition X : str := lit "x".
Definition ctx0 : Ctx NX := mkCtx nil nil.
Lemma x_outcome s : @outcome NX En (AVar X) (set_num ctx0 X s) (Ok [:: Scalar s]).
Proof. exact: (@var_outcome NX En nil (set_num ctx0 X s) X). Qed.
(** I(x, x, 0, 1) = 1/2 - dx, not 1/2 *)
Example integral_of_x :
  @outcome NX En (AInt (AVar X) X (AScalar (Fin 0 : @T NX)) (AScalar (Fin 1 : @T NX))) ctx0
    (Ok [:: sca L (2%:R^-1 - 10%:R ^- (prec - 3))]).
Proof.
  have H := @c29_linear En F L (AVar X) (AScalar (Fin 0 : @T NX)) (AScalar (Fin 1 : @T NX)) X 0 1 ctx0 1 0 ltr01.
  move: H. rewrite /strip /samples natrX expr1n expr0n /= subr0 !mul1r mul0r addr0. apply.
  - by constructor.
  - exact: (@scalar_outcome NX En nil).
  - exact: (@scalar_outcome NX En nil).
  - move=> s. rewrite mul1r addr0. exact: x_outcome.
Qed.
(** I(7, x, 0, 1) = 7 *)
Example integral_of_constant :
  @outcome NX En (AInt (AScalar (Fin 7%:R : @T NX)) X (AScalar (Fin 0 : @T NX)) (AScalar (Fin 1 : @T NX))) ctx0 (Ok [:: sca L 7%:R]).
Proof.
  have H := @c29_constant En F L (AScalar (Fin 7%:R : @T NX)) (AScalar (Fin 0 : @T NX)) (AScalar (Fin 1 : @T NX)) X 0 1 ctx0 7%:R ltr01.
  move: H. rewrite subr0 mulr1. apply; try by constructor.
  all: intros; exact: (@scalar_outcome NX En nil).
Qed.
(** D(x, x, 3) = 1 *)
Example derivative_of_x :
  @outcome NX En (ADer (AVar X) X (AScalar (Fin 3%:R : @T NX))) ctx0 (Ok [:: sca L 1]).
Proof.
  apply: (@c31_linear En F L (AVar X) (AScalar (Fin 3%:R : @T NX)) X 3%:R 1 0); first exact: (@scalar_outcome NX En nil).
  move=> t. rewrite mul1r addr0. exact: x_outcome.
Qed.
End Examples.
End Examples.
