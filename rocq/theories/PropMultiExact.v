(** * PropMultiExact: C70 in exact arithmetic. *)
From Coq Require Import ZArith Lia List String.
Set Warnings "-notation-overridden,-ambiguous-paths".
From mathcomp Require Import all_ssreflect all_algebra zify.
From Verif Require Import Base BaseFacts F64 Num Types Maths Parser Eval SpecEval EvalProofs CalcSpec CalcProofs PropEval PropCalc
  GrammarSpec Exact ExactSpec ExactLinear ExactRound PropExact PropCalcExact PropMulti.
Import GRing.Theory Order.Theory mathcomp.algebra.ssrnum.Num.Theory.
Set Implicit Arguments.
Unset Strict Implicit.
Unset Printing Implicit Defensive.
Local Open Scope ring_scope.

Section Props.
Context {En : Env}.
Variables (F : archiFieldType) (L : lib F).
Notation NX := (Exact L).
Notation outcomeX := (@outcome NX En).

(** [e], as a function of [x], has exactly one value everywhere: a number. *)
Definition numeric_in (e : AST NX) (x : str) (c : Ctx NX) : Prop :=
  forall s : F, exists y : F, outcomeX e (set_num c x (Fin s : @T NX)) (Ok [:: sca L y]).

Lemma all_visited (a b : F) : a < b -> exists2 ps, @visits NX (@width NX En (Fin a) (Fin b)) (Fin b) (Fin a) ps &
  forall q, List.In q ps -> exists s : F, @sample NX (@width NX En (Fin a) (Fin b)) q = Fin s.
Proof.
  move=> Hab. have Hps := @visits_from En F L a b (@samples En) 0 Hab (addn0 _). rewrite mul0r addr0 in Hps.
  rewrite width_strip. eexists; first exact: Hps. move=> q /List.in_map_iff [k [<- _]]. exists (point a b k). exact: sample_point.
Qed.

(** The integral of a vector is the vector of the integrals, that of a matrix
    the matrix of the integrals. *)
Theorem c70_exact_vector_integral (es : list (AST NX)) la lb x (a b : F) (c : Ctx NX) : a < b -> distinct_names c ->
  outcomeX la c (Ok [:: sca L a]) -> outcomeX lb c (Ok [:: sca L b]) ->
  (forall e, List.In e es -> numeric_in e x c) ->
  exists v, outcomeX (AInt (AVector es) x la lb) c (Ok [:: v]) /\
            outcomeX (AVector (List.map (fun e => AInt e x la lb) es)) c (Ok [:: v]).
Proof.
  move=> Hab Hc Ha Hb H. case: (all_visited Hab) => ps Hv Hs.
  apply: (@c70_vector_integral NX En la lb x (Fin a) (Fin b) c ps es Hc Ha Hb (lt_eqF Hab) (lt_gtF Hab) Hab Hv).
  move=> e He q Hq. case: (Hs q Hq) => s ->. case: (H e He s) => y Hy. by exists (Fin y).
Qed.
Theorem c70_exact_matrix_integral (rows : list (list (AST NX))) (r n : nat) la lb x (a b : F) (c : Ctx NX) : a < b -> distinct_names c ->
  outcomeX la c (Ok [:: sca L a]) -> outcomeX lb c (Ok [:: sca L b]) ->
  (0 < r)%N -> shape rows r n ->
  (forall row e, List.In row rows -> List.In e row -> numeric_in e x c) ->
  exists v, outcomeX (AInt (AMatrix rows) x la lb) c (Ok [:: v]) /\
            outcomeX (AMatrix (List.map (List.map (fun e => AInt e x la lb)) rows)) c (Ok [:: v]).
Proof.
  move=> Hab Hc Ha Hb Hr Hsh H. case: (all_visited Hab) => ps Hv Hs.
  apply: (@c70_matrix_integral NX En la lb x (Fin a) (Fin b) c ps rows r n Hc Ha Hb (lt_eqF Hab) (lt_gtF Hab) Hab Hv _ Hsh); first by lia.
  move=> row e Hrow He q Hq. case: (Hs q Hq) => s ->. case: (H row e Hrow He s) => y Hy. by exists (Fin y).
Qed.

Lemma quotient_fin (y yh : F) :
  @nmul NX (@nadd NX (Fin yh) (@nmul NX (Fin y) (@nm1 NX))) (@ndiv NX (@n1 NX) (@step_h NX En)) = Fin ((yh - y) / 10%:R ^- @prec En).
Proof.
  rewrite step_h_fin. rewrite -[@n1 NX]/(Fin 1) (div_fin L) ?invr_eq0 ?expf_neq0 ?ten_neq0 //.
  rewrite -[LHS]/(Fin ((yh + y * (-1)) * (1 / 10%:R ^- @prec En))). by rewrite mulrN1 mul1r.
Qed.
Lemma singles (es : list (AST NX)) c vs : Forall2 (fun e y => outcomeX e c (Ok [:: Scalar y])) es vs -> outcomeX (AVector es) c (Ok [:: Vector vs]).
Proof.
  move=> H. have -> : [:: Vector vs] = List.map (@Vector NX) (choices (List.map (fun s => [:: s]) vs)) by rewrite choices_singletons.
  apply: (@vector_outcome NX En). elim: H => [|e y es' vs' H _ IH] /=; by constructor.
Qed.

(** The derivative of a vector is the vector of the derivatives. *)
Theorem c70_exact_vector_derivative (es : list (AST NX)) at_ x (s : F) (c : Ctx NX) :
  outcomeX at_ c (Ok [:: sca L s]) -> (forall e, List.In e es -> numeric_in e x c) ->
  exists v, outcomeX (ADer (AVector es) x at_) c (Ok [:: v]) /\
            outcomeX (AVector (List.map (fun e => ADer e x at_) es)) c (Ok [:: v]).
Proof.
  move=> Ha H. set h := 10%:R ^- @prec En : F.
  have [ys Hy] : exists ys : list F, Forall2 (fun e y => outcomeX e (set_num c x (Fin s : @T NX)) (Ok [:: sca L y])) es ys.
  { apply: choose => e He. exact: (H e He s). }
  have [yhs Hyh] : exists ys : list F, Forall2 (fun e y => outcomeX e (set_num c x (Fin (s + h) : @T NX)) (Ok [:: sca L y])) es ys.
  { apply: choose => e He. exact: (H e He (s + h)). }
  have Lf : forall c' zs, Forall2 (fun e y => outcomeX e c' (Ok [:: sca L y])) es zs ->
                      Forall2 (fun e y => outcomeX e c' (Ok [:: Scalar y])) es (List.map (fun y => Fin y : @T NX) zs).
  { move=> c' zs. elim=> [|e y es' zs' G _ IH] /=; by constructor. }
  exists (@Vector NX (List.map (fun p => Fin ((p.2 - p.1) / h) : @T NX) (List.combine ys yhs))). split.
  - have := @c70_vector_derivative NX En es at_ x (Fin s) c (List.map (fun y => Fin y) ys) (List.map (fun y => Fin y) yhs) Ha (Lf _ _ Hy).
    rewrite step_h_fin -[@nadd NX (Fin s) _]/(Fin (s + h)) => /(_ (Lf _ _ Hyh)). rewrite -step_h_fin.
    congr (outcomeX _ _ (Ok [:: Vector _])). elim: (ys) (yhs) => [|y l IH] [|yh l'] //. cbn [List.map List.combine fst snd]. by rewrite IH quotient_fin.
  - apply: singles. elim: Hy (yhs) Hyh => [|e y es' ys' G _ IH] yhs' Hh; inversion Hh; subst => /=; constructor; last by apply: IH.
    exact: (@c31_exact_quotient En F L e at_ x s y _ c Ha G).
Qed.
End Props.

(** ** The theorems at work *)
Module Examples.
Section Examples.
Context {En : Env}.
Variables (F : archiFieldType) (L : lib F).
Notation NX := (Exact L).
Notation X := PropCalcExact.Examples.X.
Notation ctx0 := (@PropCalcExact.Examples.ctx0 F L).
Notation zero := (AScalar (Fin 0 : @T NX)).
Notation one := (AScalar (Fin 1 : @T NX)).
Notation seven := (AScalar (Fin 7%:R : @T NX)).
Lemma x_numeric : @numeric_in En F L (AVar X) X ctx0.
Proof. move=> s. exists s. exact: (@PropCalcExact.Examples.x_outcome En F L). Qed.
Lemma seven_numeric : @numeric_in En F L seven X ctx0.
Proof. move=> s. exists 7%:R. exact: (@scalar_outcome NX En nil). Qed.
(** I([x, 7], x, 0, 1) = [1/2 - dx, 7] *)
Example vector_integral :
  @outcome NX En (AInt (AVector [:: AVar X; seven]) X zero one) ctx0
    (Ok [:: @Vector NX [:: (Fin (2%:R^-1 - 10%:R ^- (prec - 3)) : @T NX); (Fin 7%:R : @T NX)]]).
Proof.
  have [||||v [H1 H2]] := @c70_exact_vector_integral En F L [:: AVar X; seven] zero one X 0 1 ctx0 ltr01.
  - by constructor.
  - exact: (@scalar_outcome NX En nil).
  - exact: (@scalar_outcome NX En nil).
  - move=> e /= [<-|[<-|//]]; [exact: x_numeric|exact: seven_numeric].
  have H3 : @outcome NX En (AVector [:: AInt (AVar X) X zero one; AInt seven X zero one]) ctx0
    (Ok [:: @Vector NX [:: (Fin (2%:R^-1 - 10%:R ^- (prec - 3)) : @T NX); (Fin 7%:R : @T NX)]]).
  { apply: singles. constructor; first exact: (PropCalcExact.Examples.integral_of_x L).
    constructor; [exact: (PropCalcExact.Examples.integral_of_constant L)|constructor]. }
  have E := outcome_unique _ _ _ _ H2 H3. by rewrite E in H1.
Qed.
End Examples.
End Examples.
