(** * PropAlgebra: C73 - in exact arithmetic an expression evaluates to what
    linear algebra says it denotes ([AlgebraSpec.v]).

    [Exact L] is exact arithmetic over an arbitrary Archimedean ordered field
    ([Exact.v]); [eval] is the evaluator of the model, unchanged. *)
From Coq Require Import ZArith Lia List String.
Set Warnings "-notation-overridden,-ambiguous-paths".
From mathcomp Require Import all_ssreflect all_algebra zify.
From Verif Require Import Base BaseFacts F64 Num Types Maths Parser Eval SpecEval EvalProofs GrammarSpec MathsForms Exact ExactSpec ExactLinear ExactRound
  ExactElim ExactGauss PropExact PropReplace AlgebraSpec.
Import GRing.Theory Order.Theory mathcomp.algebra.ssrnum.Num.Theory.
Set Implicit Arguments.
Unset Strict Implicit.
Unset Printing Implicit Defensive.
Local Open Scope ring_scope.

(** An operation on two operands with one value each. *)
Lemma one_value (N : Num) (En : Env) i (c : Ctx N) op a b x y v :
  outcome_in i a c (Ok [:: x]) -> outcome_in i b c (Ok [:: y]) -> op_meaning op x y = Ok [:: v] ->
  outcome_in i (AOp op a b) c (Ok [:: v]).
Proof.
  move=> Ha Hb Hv. apply (op_outcome_iff i c op a b _ _ _ Ha Hb). split; first by [].
  apply grid_ok_iff. have Hw := op_meaning_width op x y _ Hv. split; first by rewrite -Hw.
  move=> [|k] [|j] x' y' /=; try (by case: j); try (by case: k).
  move=> [<-] [<-]. exists [:: v]. split; first by []. split; first by []. by case=> [|k'] //; case: k'.
Qed.

(** Two expressions with the same single value. *)
Lemma same_value (N : Num) (En : Env) (a b : AST N) (c d : Ctx N) v :
  outcome a c (Ok [:: v]) -> outcome b d (Ok [:: v]) -> same_behaviour a c b d.
Proof.
  move=> Ha Hb. apply: behaviour_intro => r. split=> H.
  - by rewrite (outcome_unique _ _ _ _ H Ha).
  - by rewrite (outcome_unique _ _ _ _ H Hb).
Qed.

Section Sound.
Variables (F : archiFieldType) (L : lib F) (En : Env).
Notation NX := (Exact L).
Notation V := (Value NX).
Notation E := (AST NX).
Variable phi : str -> option (seq str * E).

Lemma sub_ss x y : sub (sca L x) (sca L y) = Ok (sca L (x - y)).
Proof. by rewrite /sca /= /sadd /= mulrN1. Qed.
Lemma neg_v n (v : 'cV[F]_n) : neg (vec L v) = Ok (vec L (- v)).
Proof.
  rewrite /vec /neg. congr (Ok (Vector _)). rewrite Map_map -map_comp. apply: eq_map => k.
  by rewrite /comp nm1E /= !mxE mulN1r.
Qed.
Lemma neg_m r c (A : 'M[F]_(r, c)) : neg (mat L A) = Ok (mat L (- A)).
Proof.
  rewrite /mat /neg. congr (Ok (Matrix _)). rewrite Map_map -map_comp. apply: eq_map => k.
  rewrite /comp Map_map -map_comp. apply: eq_map => l. by rewrite /comp nm1E /= !mxE mulN1r.
Qed.
Lemma cross_vv n (u v : 'cV[F]_n) : (n <= 3)%N -> cross (vec L u) (vec L v) = Ok (vec L (crossp (pad3 u) (pad3 v))).
Proof.
  move=> Hn.
  have Pu (w : 'cV[F]_n) : pad3 w = \col_(i < 3) fn w i 0%N.
  { apply/colP => i. rewrite !mxE /fn. case: insubP => //= j _ _. by rewrite -[0%N]/(val (0 : 'I_1)) valK. }
  have Nu (w : 'cV[F]_n) i : List.nth i (vfins L n (fun i => fn w i 0%N)) (@n0 NX) = Fin (fn w i 0%N).
  { case: (ltnP i n) => Hi; first exact: vfins_com.
    rewrite nth_overflow ?vfins_length; last by apply/ssrnat.leP. by rewrite n0E /fn insubN // -leqNgt. }
  pose a i := fn u i 0%N. pose b i := fn v i 0%N.
  pose w i := match i with
    | 0%N => a 1%N * b 2%N - a 2%N * b 1%N | 1%N => a 2%N * b 0%N - a 0%N * b 2%N | _ => a 0%N * b 1%N - a 1%N * b 0%N end.
  have -> : crossp (pad3 u) (pad3 v) = \col_(i < 3) w i.
  { rewrite !Pu /crossp. apply/colP => i. rewrite !mxE /w /a /b. by []. }
  rewrite (vec_mk L 3 w) !vec_vfins /cross /vcross !vfins_length Nat.eqb_refl /Nat.ltb lebE ltnNge Hn /=. by rewrite !Nu.
Qed.
Lemma get_v n (v : 'cV[F]_n) (k : 'I_n) : Z.lt (Z.of_nat n) (Z.pow 2 64) ->
  get (vec L v) (sca L (val k)%:R) = Ok (sca L (v k 0)).
Proof.
  move=> Hn. rewrite vec_vfins /sca /get. rewrite -[X in Fin X](of_Z_nat F (val k)).
  have Hk := ltn_ord k. have T : trunc_Z (of_Z F (Z.of_nat k)) = Z.of_nat k by exact: trunc_Z_of_Z.
  have -> : nrem1_zero (Num := NX) (Fin (of_Z F (Z.of_nat k))) = true by rewrite /= T eqxx.
  have -> : nsign_neg (Num := NX) (Fin (of_Z F (Z.of_nat k))) = false by rewrite /= of_Z_nat ltrn0.
  have -> : nto_usize (Num := NX) (Fin (of_Z F (Z.of_nat k))) = Z.of_nat k.
  { rewrite /= /ext_to T /clamp. lia. }
  have Hl := vfins_length L n (fun i => fn v i 0%N). set l := vfins _ _ _ in Hl *. have Hc : com l k = Fin (fn v k 0%N) by exact: vfins_com.
  case El : l => [|z l']; first by exfalso; move: Hl Hk; rewrite El /=; lia.
  rewrite -El. have -> : Z.gtb (Z.of_nat k) (Z.of_nat (List.length l) - 1) = false by rewrite Hl; lia.
  rewrite Nat2Z.id /idx. rewrite (nth_error_nth' l (@n0 NX)) ?Hl; last by apply/ssrnat.ltP.
  rewrite /com in Hc. rewrite Hc /=. by rewrite -[0%N]/(val (0 : 'I_1)) fn_ord.
Qed.
Lemma abs_s x : abs (sca L x) = Ok (sca L `|x|).
Proof.
  rewrite /sca /abs n0E nm1E /=. case: ltrP => Hx; last by rewrite ger0_norm. by rewrite ltr0_norm // mulrN1.
Qed.
Lemma abs_v n (v : 'cV[F]_n) y : x_sqrt L (Fin (dotp v v)) = Fin y -> abs (vec L v) = Ok (sca L y).
Proof.
  move=> Hy. rewrite /vec /abs /sca -Hy. congr (Ok (@Scalar NX (x_sqrt L _))). rewrite n0E /dotp.
  have -> : \sum_i v i 0 * v i 0 = \sum_(i <- enum 'I_n) v i 0 * v i 0 by rewrite big_enum.
  have H (ks : seq 'I_n) (s : F) : List.fold_left (fun s i => @nadd NX s (@npowi NX i 2)) [seq Fin (v k 0) | k <- ks] (Fin s)
      = Fin (s + \sum_(k <- ks) v k 0 * v k 0).
  { elim: ks s => [|k ks IH] s; first by rewrite big_nil addr0.
    have Hp := npowi_fin L (v k 0) 2. rewrite big_cons addrA -IH -[v k 0 * v k 0]expr2 [LHS]/=. congr (List.fold_left _ _ _).
    exact: (congr1 (@nadd NX (Fin s)) Hp). }
  by rewrite H add0r.
Qed.

Lemma holds_bind c rho ps vs : size vs = size ps -> holds phi c rho ->
  holds phi (mkCtx (call_vars ps vs (vars c)) (funs c)) (bind ps vs rho).
Proof.
  move=> Hs [Hv Hf]. split; last by []. move=> n v Hn.
  have := lookup_call_vars ps vs (vars c) (funs c) n. rewrite /lookup_var => ->.
  elim: ps vs Hs Hn => [|p ps IH] [|w vs] //= Hs; first by move=> H; exact: Hv.
  case: (str_eqb p n); first by move=> [<-]; eexists.
  by move=> H; apply: IH => //; case: Hs.
Qed.

Scheme means_mut := Minimality for means Sort Prop
  with means_all_mut := Minimality for means_all Sort Prop
  with means_rows_mut := Minimality for means_rows Sort Prop.

Notation gives i c e v := (outcome_in i e c (Ok [:: v])).

Lemma singles_all i (c : Ctx NX) es vs : List.Forall2 (fun e (v : V) => gives i c e v) es vs ->
  List.Forall2 (fun e us => outcome_in i e c (Ok us)) es (List.map (fun v => [:: v]) vs).
Proof. by elim=> [|e v es' vs' H _ IH]; constructor. Qed.

(** ** The theorem *)
Lemma means_sound i rho e v : means phi i rho e v -> forall c, holds phi c rho -> gives i c e v.
Proof.
  move: i rho e v.
  apply: (@means_mut F L phi (fun i rho e v => forall c, holds phi c rho -> gives i c e v)
    (fun i rho es vs => forall c, holds phi c rho -> List.Forall2 (fun e (v : V) => gives i c e v) es vs)
    (fun i rho rows vss => forall c, holds phi c rho -> List.Forall2 (List.Forall2 (fun e (v : V) => gives i c e v)) rows vss)).
  - move=> i rho x c _. exact: scalar_outcome.
  - move=> i rho n v Hn c [Hc _]. have [w [Hw Ew]] := Hc n v Hn. have := var_outcome i c n. by rewrite /lookup_var Hw Ew.
  - move=> i rho a b v w _ Ha _ Hb c Hc. by apply: (one_value (Ha c Hc) (Hb c Hc)).
  - move=> i rho f ps body args vs v Hi Hf Hn _ Ha _ Hb c Hc. have [Hv Hg] := Hc. have [g [Eg [Ep Eb]]] := Hg f ps body Hf.
    have Hl := Ha c Hc. have Hs : size vs = size ps.
    { rewrite -Hn. symmetry. by elim: Hl => [|e u es us _ _ /= ->]. }
    have -> : [:: v] = List.concat [:: [:: v]] by [].
    apply: (@call_outcome _ _ i c f args g (List.map (fun u => [:: u]) vs) [:: [:: v]]) => //.
    + by rewrite Ep.
    + exact: singles_all.
    + rewrite choices_singletons. constructor; last by constructor. rewrite Ep Eb. apply: Hb. exact: holds_bind.
  - move=> i rho es n v _ H c Hc.
    have -> : [:: vec L v] = List.map (@Vector NX) (choices (List.map (fun x => [:: x]) [seq Fin (v k 0) | k <- enum 'I_n])).
    { by rewrite choices_singletons. }
    apply: vector_outcome. move: (H c Hc) => {H}. elim: es (enum 'I_n) => [|e es IH] [|k ks] /= HH; inversion HH; subst; constructor => //. exact: IH.
  - move=> i rho rows r c A _ H cx Hc.
    have -> : [:: mat L A] = List.map (@Matrix NX) (choices (List.map (@choices _) (List.map (List.map (fun x => [:: x]))
        [seq [seq Fin (A k l) | l <- enum 'I_c] | k <- enum 'I_r]))).
    { rewrite List.map_map (List.map_ext _ (fun r => [:: r])); last by move=> row; exact: choices_singletons. by rewrite choices_singletons. }
    apply: matrix_outcome. move: (H cx Hc) => {H}. elim: rows (enum 'I_r) => [|es rows IH] [|k ks] /= HH; inversion HH as [|? ? ? ? H1 H2]; subst; constructor => //; last exact: IH.
    move: H1 => {HH}. elim: es (enum 'I_c) => [|e es IH'] [|l ls] /= HH'; inversion HH'; subst; constructor => //. exact: IH'.
  - move=> i rho a b x y _ Ha _ Hb c Hc. by apply: (one_value (Ha c Hc) (Hb c Hc)).
  - move=> i rho a b n u v _ Ha _ Hb c Hc. apply: (one_value (Ha c Hc) (Hb c Hc)). by rewrite /op_meaning add_vv.
  - move=> i rho a b r c' A B _ Ha _ Hb c Hc. apply: (one_value (Ha c Hc) (Hb c Hc)). by rewrite /op_meaning add_mm.
  - move=> i rho a b x y _ Ha _ Hb c Hc. apply: (one_value (Ha c Hc) (Hb c Hc)). by rewrite /op_meaning sub_ss.
  - move=> i rho a b n u v _ Ha _ Hb c Hc. apply: (one_value (Ha c Hc) (Hb c Hc)). by rewrite /op_meaning sub_vv.
  - move=> i rho a b r c' A B _ Ha _ Hb c Hc. apply: (one_value (Ha c Hc) (Hb c Hc)). by rewrite /op_meaning sub_mm.
  - move=> i rho a b w x _ Ha _ Hb c Hc. apply: (one_value (Ha c Hc) (Hb c Hc)). by rewrite /op_meaning /neg /sca nm1E /= mulN1r.
  - move=> i rho a b w n v _ Ha _ Hb c Hc. apply: (one_value (Ha c Hc) (Hb c Hc)). by rewrite /op_meaning neg_v.
  - move=> i rho a b w r c' A _ Ha _ Hb c Hc. apply: (one_value (Ha c Hc) (Hb c Hc)). by rewrite /op_meaning neg_m.
  - move=> i rho op a b x y Ho _ Ha _ Hb c Hc. apply: (one_value (Ha c Hc) (Hb c Hc)). by case: Ho => ->.
  - move=> i rho op a b x n v Ho _ Ha _ Hb c Hc. apply: (one_value (Ha c Hc) (Hb c Hc)). by case: Ho => ->; rewrite /op_meaning mult_sv.
  - move=> i rho op a b x n v Ho _ Ha _ Hb c Hc. apply: (one_value (Ha c Hc) (Hb c Hc)). by case: Ho => ->; rewrite /op_meaning mult_vs.
  - move=> i rho op a b x r c' A Ho _ Ha _ Hb c Hc. apply: (one_value (Ha c Hc) (Hb c Hc)). by case: Ho => ->; rewrite /op_meaning mult_sm.
  - move=> i rho op a b x r c' A Ho _ Ha _ Hb c Hc. apply: (one_value (Ha c Hc) (Hb c Hc)). by case: Ho => ->; rewrite /op_meaning mult_ms.
  - move=> i rho op a b n u v Ho _ Ha _ Hb c Hc. apply: (one_value (Ha c Hc) (Hb c Hc)). by case: Ho => ->; rewrite /op_meaning mult_vv.
  - move=> i rho op a b r c' A v Ho _ Ha _ Hb c Hc. apply: (one_value (Ha c Hc) (Hb c Hc)). by case: Ho => ->; rewrite /op_meaning mult_mv.
  - move=> i rho op a b r c' d A B Ho _ Ha _ Hb c Hc. apply: (one_value (Ha c Hc) (Hb c Hc)). by case: Ho => ->; rewrite /op_meaning mult_mm.
  - move=> i rho a b x y Hy _ Ha _ Hb c Hc. apply: (one_value (Ha c Hc) (Hb c Hc)). by rewrite /op_meaning /div /sca /ssdiv (div_fin L).
  - move=> i rho a b y n v Hy _ Ha _ Hb c Hc. apply: (one_value (Ha c Hc) (Hb c Hc)). by rewrite /op_meaning div_vs.
  - move=> i rho a b y r c' A Hy _ Ha _ Hb c Hc. apply: (one_value (Ha c Hc) (Hb c Hc)). by rewrite /op_meaning div_ms.
  - move=> i rho a b n u v Hn _ Ha _ Hb c Hc. apply: (one_value (Ha c Hc) (Hb c Hc)). by rewrite /op_meaning cross_vv.
  - move=> i rho a b n v k Hn _ Ha _ Hb c Hc. apply: (one_value (Ha c Hc) (Hb c Hc)). by rewrite /op_meaning get_v.
  - move=> i rho a b n A k Hk _ Ha _ Hb c Hc. apply: (one_value (Ha c Hc) (Hb c Hc)). by rewrite /op_meaning c25_power.
  - move=> i rho a b w n A _ Ha _ Hb c Hc. apply: (one_value (Ha c Hc) (Hb c Hc)). by rewrite /op_meaning det_mat.
  - move=> i rho a b w n A Hm _ Ha _ Hb c Hc. apply: (one_value (Ha c Hc) (Hb c Hc)). by rewrite /op_meaning c24_inverse.
  - move=> i rho a b w x _ Ha _ Hb c Hc. apply: (one_value (Ha c Hc) (Hb c Hc)). by rewrite /op_meaning abs_s.
  - move=> i rho a b w n v y Hy _ Ha _ Hb c Hc. apply: (one_value (Ha c Hc) (Hb c Hc)). by rewrite /op_meaning (abs_v Hy).
  - move=> i rho op f a b w x y Ho Hf _ Ha _ Hb c Hc. apply: (one_value (Ha c Hc) (Hb c Hc)).
    case: op Ho => // -[Ef]; rewrite /op_meaning /sin /cos /tan /arcsin /arccos /arctan /sqrt /ln /scalar_fn /sca /= Ef Hf //.
  - move=> i rho a b x y z Hz _ Ha _ Hb c Hc. apply: (one_value (Ha c Hc) (Hb c Hc)). by rewrite /op_meaning /pow /sca /sspow /= Hz.
  - move=> i rho a b x y z Hy Hz _ Ha _ Hb c Hc. apply: (one_value (Ha c Hc) (Hb c Hc)).
    by rewrite /op_meaning /root /sca n1E (div_fin L) // mul1r /= Hz.
  - by move=> i rho c _; constructor.
  - by move=> i rho e es v vs _ H _ Hs c Hc; constructor; [exact: H|exact: Hs].
  - by move=> i rho c _; constructor.
  - by move=> i rho es vs rows vss _ H _ Hs c Hc; constructor; [exact: H|exact: Hs].
Qed.

(** ** C73 *)
Theorem c73_value rho e v c : means phi [::] rho e v -> holds phi c rho -> outcome e c (Ok [:: v]).
Proof. by move=> H Hc; exact: means_sound H c Hc. Qed.
(** So an expression denotes at most one value. *)
Theorem c73_unique rho e v w c : means phi [::] rho e v -> means phi [::] rho e w -> holds phi c rho -> v = w.
Proof. move=> Hv Hw Hc. by have := outcome_unique _ _ _ _ (c73_value Hv Hc) (c73_value Hw Hc); case. Qed.
(** Expressions that denote the same value cannot be told apart. *)
Theorem c73_interchangeable rho a b v c : means phi [::] rho a v -> means phi [::] rho b v -> holds phi c rho ->
  same_behaviour a c b c.
Proof. move=> Ha Hb Hc. exact: same_value (c73_value Ha Hc) (c73_value Hb Hc). Qed.
End Sound.

(** ** C73: the laws of algebra, for all expressions with known values *)
Section Laws.
Variables (F : archiFieldType) (L : lib F) (En : Env).
Notation NX := (Exact L).
Notation V := (Value NX).
Notation E := (AST NX).
Variable (c : Ctx NX).
Implicit Types (a b d : E).
(** [a] has the single value [v]. *)
Notation "a ~> v" := (outcome a c (Ok [:: v])) (at level 70).
(** [a] and [b] behave in the same way. *)
Notation "a =~ b" := (same_behaviour a c b c) (at level 70).
Notation "a +! b" := (@AOp NX OAdd a b) (at level 50, left associativity).
Notation "a -! b" := (@AOp NX OSub a b) (at level 50, left associativity).
Notation "a *! b" := (@AOp NX OMult a b) (at level 40, left associativity).
Notation "a /! b" := (@AOp NX ODiv a b) (at level 40, left associativity).
Notation "a #! b" := (@AOp NX OCross a b) (at level 40, left associativity).
Notation "a ^! k" := (@AOp NX OPow a (@AScalar NX (Fin k%:R))) (at level 30).
Notation "-! a" := (@AOp NX ONeg (@AScalar NX n0) a) (at level 35).
Notation det_of a := (@AOp NX ODet a (@AScalar NX n0)).
Notation inv_of a := (@AOp NX OInv a (@AScalar NX n0)).

(** Each term of the algebra of its operands' values. *)
Let phi0 : str -> option (seq str * E) := fun _ => None.
Lemma op_to op a b x y v : a ~> x -> b ~> y -> op_meaning op x y = Ok [:: v] -> AOp op a b ~> v.
Proof. exact: one_value. Qed.
Lemma zero_to : @AScalar NX n0 ~> sca L 0. Proof. exact: scalar_outcome. Qed.
Lemma lit_to x : @AScalar NX (Fin x) ~> sca L x. Proof. exact: scalar_outcome. Qed.

Ltac go := repeat first
  [ eassumption | exact: zero_to | exact: lit_to
  | (eapply op_to; [solve [go] | solve [go] |
      solve [ rewrite /op_meaning;
        (rewrite add_vv || rewrite add_mm // || rewrite sub_vv || rewrite sub_mm // || rewrite sub_ss || rewrite mult_mm // || rewrite mult_mv //
         || rewrite mult_vv || rewrite mult_sm // || rewrite mult_sv || rewrite mult_ms // || rewrite mult_vs || rewrite neg_v || rewrite neg_m
         || rewrite det_mat // || rewrite c25_power // || rewrite c24_inverse // || rewrite cross_vv // || idtac); reflexivity ] ]) ].

(** Sums *)
Theorem c73_sum_commutative a b :
  (forall x y, a ~> sca L x -> b ~> sca L y -> a +! b =~ b +! a) /\
  (forall n (u v : 'cV[F]_n), a ~> vec L u -> b ~> vec L v -> a +! b =~ b +! a) /\
  (forall r s (A B : 'M[F]_(r.+1, s)), a ~> mat L A -> b ~> mat L B -> a +! b =~ b +! a).
Proof.
  split; [|split].
  - move=> x y Ha Hb. apply: (@same_value _ _ _ _ _ _ (sca L (x + y))); [by go|]. rewrite addrC. by go.
  - move=> n u v Ha Hb. apply: (@same_value _ _ _ _ _ _ (vec L (u + v))); [by go|]. rewrite addrC. by go.
  - move=> r s A B Ha Hb. apply: (@same_value _ _ _ _ _ _ (mat L (A + B))); [by go|]. rewrite addrC. by go.
Qed.
Theorem c73_sum_associative a b d :
  (forall x y z, a ~> sca L x -> b ~> sca L y -> d ~> sca L z -> a +! b +! d =~ a +! (b +! d)) /\
  (forall n (u v w : 'cV[F]_n), a ~> vec L u -> b ~> vec L v -> d ~> vec L w -> a +! b +! d =~ a +! (b +! d)) /\
  (forall r s (A B C : 'M[F]_(r.+1, s)), a ~> mat L A -> b ~> mat L B -> d ~> mat L C -> a +! b +! d =~ a +! (b +! d)).
Proof.
  split; [|split].
  - move=> x y z Ha Hb Hd. apply: (@same_value _ _ _ _ _ _ (sca L (x + y + z))); [by go|]. rewrite -addrA. by go.
  - move=> n u v w Ha Hb Hd. apply: (@same_value _ _ _ _ _ _ (vec L (u + v + w))); [by go|]. rewrite -addrA. by go.
  - move=> r s A B C Ha Hb Hd. apply: (@same_value _ _ _ _ _ _ (mat L (A + B + C))); [by go|]. rewrite -addrA. by go.
Qed.
(** Differences and signs *)
Theorem c73_difference a b :
  (forall x y, a ~> sca L x -> b ~> sca L y -> a -! b =~ a +! -! b) /\
  (forall n (u v : 'cV[F]_n), a ~> vec L u -> b ~> vec L v -> a -! b =~ a +! -! b) /\
  (forall r s (A B : 'M[F]_(r.+1, s)), a ~> mat L A -> b ~> mat L B -> a -! b =~ a +! -! b).
Proof.
  split; [|split].
  - move=> x y Ha Hb. apply: (@same_value _ _ _ _ _ _ (sca L (x - y))); [by go|].
    have Hn : -! b ~> sca L (- y). { eapply op_to; [exact: zero_to|exact: Hb|]. by rewrite /op_meaning /neg /sca nm1E /= mulN1r. } by go.
  - move=> n u v Ha Hb. apply: (@same_value _ _ _ _ _ _ (vec L (u - v))); by go.
  - move=> r s A B Ha Hb. apply: (@same_value _ _ _ _ _ _ (mat L (A - B))); by go.
Qed.
(** Products *)
Theorem c73_product_associative a b d :
  (forall x y z, a ~> sca L x -> b ~> sca L y -> d ~> sca L z -> a *! b *! d =~ a *! (b *! d)) /\
  (forall r s t q (A : 'M[F]_(r.+1, s.+1)) (B : 'M[F]_(s.+1, t.+1)) (C : 'M[F]_(t.+1, q)),
     a ~> mat L A -> b ~> mat L B -> d ~> mat L C -> a *! b *! d =~ a *! (b *! d)) /\
  (forall r s t (A : 'M[F]_(r.+1, s.+1)) (B : 'M[F]_(s.+1, t)) (v : 'cV[F]_t),
     a ~> mat L A -> b ~> mat L B -> d ~> vec L v -> a *! b *! d =~ a *! (b *! d)).
Proof.
  split; [|split].
  - move=> x y z Ha Hb Hd. apply: (@same_value _ _ _ _ _ _ (sca L (x * y * z))); [by go|]. rewrite -mulrA. by go.
  - move=> r s t q A B C Ha Hb Hd. apply: (@same_value _ _ _ _ _ _ (mat L (A *m B *m C))); [by go|]. rewrite -mulmxA. by go.
  - move=> r s t A B v Ha Hb Hd. apply: (@same_value _ _ _ _ _ _ (vec L (A *m B *m v))); [by go|]. rewrite -mulmxA. by go.
Qed.
Theorem c73_product_distributes a b d :
  (forall x y z, a ~> sca L x -> b ~> sca L y -> d ~> sca L z -> a *! (b +! d) =~ a *! b +! a *! d) /\
  (forall r s t (A : 'M[F]_(r.+1, s.+1)) (B C : 'M[F]_(s.+1, t)),
     a ~> mat L A -> b ~> mat L B -> d ~> mat L C -> a *! (b +! d) =~ a *! b +! a *! d) /\
  (forall r s t (A B : 'M[F]_(r.+1, s.+1)) (C : 'M[F]_(s.+1, t)),
     a ~> mat L A -> b ~> mat L B -> d ~> mat L C -> (a +! b) *! d =~ a *! d +! b *! d) /\
  (forall r s (A : 'M[F]_(r.+1, s)) (u v : 'cV[F]_s),
     a ~> mat L A -> b ~> vec L u -> d ~> vec L v -> a *! (b +! d) =~ a *! b +! a *! d) /\
  (forall n (u v w : 'cV[F]_n),
     a ~> vec L u -> b ~> vec L v -> d ~> vec L w -> a *! (b +! d) =~ a *! b +! a *! d) /\
  (forall x n (u v : 'cV[F]_n),
     a ~> sca L x -> b ~> vec L u -> d ~> vec L v -> a *! (b +! d) =~ a *! b +! a *! d).
Proof.
  split; [|split; [|split; [|split; [|split]]]].
  - move=> x y z Ha Hb Hd. apply: (@same_value _ _ _ _ _ _ (sca L (x * (y + z)))); [by go|]. rewrite mulrDr. by go.
  - move=> r s t A B C Ha Hb Hd. apply: (@same_value _ _ _ _ _ _ (mat L (A *m (B + C)))); [by go|]. rewrite mulmxDr. by go.
  - move=> r s t A B C Ha Hb Hd. apply: (@same_value _ _ _ _ _ _ (mat L ((A + B) *m C))); [by go|]. rewrite mulmxDl. by go.
  - move=> r s A u v Ha Hb Hd. apply: (@same_value _ _ _ _ _ _ (vec L (A *m (u + v)))); [by go|]. rewrite mulmxDr. by go.
  - move=> n u v w Ha Hb Hd. apply: (@same_value _ _ _ _ _ _ (sca L (dotp u (v + w)))); [by go|].
    have -> : dotp u (v + w) = dotp u v + dotp u w by rewrite /dotp -big_split; apply: eq_bigr => k _; rewrite mxE mulrDr. by go.
  - move=> x n u v Ha Hb Hd. apply: (@same_value _ _ _ _ _ _ (vec L (x *: (u + v)))); [by go|]. rewrite scalerDr. by go.
Qed.
(** Products of numbers and dot products commute, and a number may stand on
    either side. *)
Theorem c73_product_commutes a b :
  (forall x y, a ~> sca L x -> b ~> sca L y -> a *! b =~ b *! a) /\
  (forall n (u v : 'cV[F]_n), a ~> vec L u -> b ~> vec L v -> a *! b =~ b *! a) /\
  (forall x n (v : 'cV[F]_n), a ~> sca L x -> b ~> vec L v -> a *! b =~ b *! a) /\
  (forall x r s (A : 'M[F]_(r.+1, s)), a ~> sca L x -> b ~> mat L A -> a *! b =~ b *! a).
Proof.
  split; [|split; [|split]].
  - move=> x y Ha Hb. apply: (@same_value _ _ _ _ _ _ (sca L (x * y))); [by go|]. rewrite mulrC. by go.
  - move=> n u v Ha Hb. apply: (@same_value _ _ _ _ _ _ (sca L (dotp u v))); [by go|].
    have -> : dotp u v = dotp v u by apply: eq_bigr => k _; rewrite mulrC. by go.
  - move=> x n v Ha Hb. apply: (@same_value _ _ _ _ _ _ (vec L (x *: v))); by go.
  - move=> x r s A Ha Hb. apply: (@same_value _ _ _ _ _ _ (mat L (x *: A))); by go.
Qed.
(** The determinant of a product, of an inverse. *)
Theorem c73_det_product a b n (A B : 'M[F]_n.+1) : a ~> mat L A -> b ~> mat L B ->
  det_of (a *! b) =~ det_of a *! det_of b.
Proof.
  move=> Ha Hb. apply: (@same_value _ _ _ _ _ _ (sca L (\det (A *m B)))); [by go|]. rewrite det_mulmx. by go.
Qed.
Theorem c73_det_inverse a n (A : 'M[F]_n.+1) : regular_minors A -> a ~> mat L A ->
  det_of (inv_of a) *! det_of a ~> sca L 1.
Proof.
  move=> Hm Ha. have Hu : A \in unitmx by rewrite unitmxE unitfE minors_det.
  have -> : 1 = \det (invmx A) * \det A by rewrite -det_mulmx mulVmx // det1. by go.
Qed.
(** A matrix and its inverse. *)
Theorem c73_inverse a n (A : 'M[F]_n.+1) : regular_minors A -> a ~> mat L A ->
  inv_of a *! a ~> mat L (1%:M : 'M[F]_n.+1) /\ a *! inv_of a ~> mat L (1%:M : 'M[F]_n.+1).
Proof.
  move=> Hm Ha. have Hu : A \in unitmx by rewrite unitmxE unitfE minors_det.
  split; [rewrite -(mulVmx Hu)|rewrite -(mulmxV Hu)]; by go.
Qed.
(** Solving a linear system with the inverse. *)
Theorem c73_solve_by_inverse a b n (A : 'M[F]_n.+1) (v : 'cV[F]_n.+1) : regular_minors A -> a ~> mat L A -> b ~> vec L v ->
  inv_of a *! (a *! b) =~ b /\ a *! (inv_of a *! b) =~ b.
Proof.
  move=> Hm Ha Hb. have Hu : A \in unitmx by rewrite unitmxE unitfE minors_det.
  split; apply: (@same_value _ _ _ _ _ _ (vec L v)) => //.
  - have {1}-> : v = invmx A *m (A *m v) by rewrite mulmxA mulVmx // mul1mx. by go.
  - have {1}-> : v = A *m (invmx A *m v) by rewrite mulmxA mulmxV // mul1mx. by go.
Qed.
(** Powers. *)
Theorem c73_powers a n (A : 'M[F]_n.+1) j k : Z.lt (Z.of_nat (j + k)) (Z.pow 2 31) -> a ~> mat L A ->
  a ^! (j + k) =~ a ^! j *! a ^! k /\ a ^! 0 ~> mat L (1%:M : 'M[F]_n.+1) /\ a ^! 1 =~ a.
Proof.
  move=> Hjk Ha. have Hj : Z.lt (Z.of_nat j) (Z.pow 2 31) by lia. have Hk : Z.lt (Z.of_nat k) (Z.pow 2 31) by lia.
  have P i : Z.lt (Z.of_nat i) (Z.pow 2 31) -> a ^! i ~> mat L (A ^+ i).
  { move=> Hi. eapply op_to; [exact: Ha|exact: lit_to|]. by rewrite /op_meaning c25_power. }
  split; [|split].
  - apply: (@same_value _ _ _ _ _ _ (mat L (A ^+ (j + k)))); [exact: P|]. rewrite exprD.
    have Pj := P j Hj. have Pk := P k Hk. eapply op_to; [exact: Pj|exact: Pk|]. by rewrite /op_meaning mult_mm.
  - exact: (P 0%N).
  - apply: (@same_value _ _ _ _ _ _ (mat L A)) => //. exact: (P 1%N).
Qed.
(** Cross products. *)
Theorem c73_cross a b (u v : 'cV[F]_3) : a ~> vec L u -> b ~> vec L v ->
  [/\ a #! b =~ -! (b #! a), (a #! b) *! a ~> sca L 0, (a #! b) *! b ~> sca L 0 & a #! a ~> vec L (0 : 'cV[F]_3)].
Proof.
  move=> Ha Hb. have Pd (w : 'cV[F]_3) : pad3 w = w.
  { apply/colP => i. rewrite mxE. case: insubP => [j _ Hj|]; last by rewrite ltn_ord. congr (w _ 0). exact: val_inj. }
  have D3 (x y : 'cV[F]_3) : dotp x y = x 0 0 * y 0 0 + (x 1 0 * y 1 0 + x 2%:R 0 * y 2%:R 0).
  { rewrite /dotp !big_ord_recl big_ord0 addr0. congr (_ + (_ + _)); congr (x _ _ * y _ _); exact: val_inj. }
  have Cab : a #! b ~> vec L (crossp u v) by have -> : crossp u v = crossp (pad3 u) (pad3 v); [by rewrite !Pd|go].
  have Cba : b #! a ~> vec L (crossp v u) by have -> : crossp v u = crossp (pad3 v) (pad3 u); [by rewrite !Pd|go].
  have Caa : a #! a ~> vec L (crossp u u) by have -> : crossp u u = crossp (pad3 u) (pad3 u); [by rewrite !Pd|go].
  split.
  - apply: (@same_value _ _ _ _ _ _ (vec L (crossp u v))) => //.
    have -> : crossp u v = - crossp v u.
    { apply/colP => i. rewrite !mxE. case: i => -[|[|[|i]]] //= _; rewrite opprB; congr (_ - _); exact: mulrC. }
    by go.
  - have -> : 0 = dotp (crossp u v) u by rewrite D3 !mxE /= (cross_orth_l (F_ring F)). by go.
  - have -> : 0 = dotp (crossp u v) v by rewrite D3 !mxE /= (cross_orth_r (F_ring F)). by go.
  - have <- : crossp u u = 0 by apply/colP => i; rewrite !mxE; case: i => -[|[|[|i]]] //= _; apply/eqP; rewrite subr_eq0 mulrC.
    exact: Caa.
Qed.
End Laws.

(** ** Concrete cases *)
Module Examples.
Import PropExact.Examples.
Notation NQ := (Exact L0).
Definition f : str := [:: Npos 102].
Definition p : str := [:: Npos 112].
Definition q : str := [:: Npos 113].
(** [f(p, q) = det(p*q)], the variable [p] is [A] (also the name of a
    parameter). *)
Definition body : AST NQ := @AOp NQ ODet (@AOp NQ OMult (@AVar NQ p) (@AVar NQ q)) (@AScalar NQ n0).
Definition phi : str -> option (seq str * AST NQ) := fun n => if str_eqb n f then Some ([:: p; q], body) else None.
Definition rho : str -> option (Value NQ) := fun n => if str_eqb n p then Some (mat L0 A) else None.
Definition cx : Ctx NQ := mkCtx [:: mkVar p [:: mat L0 A]] [:: mkFun f body [:: p; q]].
Example cx_holds : holds phi cx rho.
Proof.
  split.
  - move=> n v. rewrite /rho. case E : (str_eqb n p) => // -[<-]. apply str_eqb_eq in E. subst n. by eexists.
  - move=> g ps b. rewrite /phi. case E : (str_eqb g f) => // -[<- <-]. apply str_eqb_eq in E. subst g. by eexists.
Qed.
(** [f(inv(p), p*p) - 8] is [det A - 8], that is, -16. *)
Definition e : AST NQ :=
  @AOp NQ OSub (@AFun NQ f [:: @AOp NQ OInv (@AVar NQ p) (@AScalar NQ n0); @AOp NQ OMult (@AVar NQ p) (@AVar NQ p)]) (@AScalar NQ (Fin 8%:Q)).
Example e_means : means phi [::] rho e (sca L0 (\det (invmx A *m (A *m A)) - 8%:Q)).
Proof.
  have Hp : means phi [::] rho (@AVar NQ p) (mat L0 A) by apply: m_variable.
  apply: m_sub_ss; last exact: m_number.
  apply: (@m_call _ _ _ _ _ f [:: p; q] body _ [:: mat L0 (invmx A); mat L0 (A *m A)]) => //.
  - apply: m_cons; first by apply: m_inv; [exact: hypotheses|exact: Hp|exact: m_number].
    apply: m_cons; last exact: m_nil. by apply: m_mul_mm; [left|exact: Hp|exact: Hp].
  - apply: m_det; last exact: m_number. by apply: m_mul_mm; [left|apply: m_variable|apply: m_variable].
Qed.
Example e_value (En : Env) : outcome e cx (Ok [:: sca L0 (- 16%:Q)]).
Proof.
  have D : \det A = - 8%:Q. { have := determinant. by rewrite c23_determinant // => -[]. }
  have -> : - 16%:Q = \det (invmx A *m (A *m A)) - 8%:Q.
  { have U : A \in unitmx by rewrite unitmxE unitfE D. by rewrite mulmxA mulVmx // mul1mx D. }
  exact: c73_value e_means cx_holds.
Qed.
(** The law of associativity is a law of exact arithmetic only: in binary64
    [0.1+0.2+0.3] and [0.1+(0.2+0.3)] differ. *)
Import Toy.
Definition tenth (k : Z) : AST NT := @AScalar NT (f_of_dec false k (-1)).
Local Existing Instance ET.
Example binary64_not_associative :
  ~ same_behaviour (@AOp NT OAdd (@AOp NT OAdd (tenth 1) (tenth 2)) (tenth 3)) (@ctx_empty NT)
      (@AOp NT OAdd (tenth 1) (@AOp NT OAdd (tenth 2) (tenth 3))) (@ctx_empty NT).
Proof.
  move=> [H _]. pose x (k : Z) : @Num.T NT := f_of_dec false k (-1).
  pose l := @nadd NT (@nadd NT (x (Zpos 1)) (x (Zpos 2))) (x (Zpos 3)). pose r := @nadd NT (x (Zpos 1)) (@nadd NT (x (Zpos 2)) (x (Zpos 3))).
  have lit k : outcome (tenth k) (@ctx_empty NT) (Ok [:: @Scalar NT (x k)]) by exact: scalar_outcome.
  have Hl : outcome (@AOp NT OAdd (@AOp NT OAdd (tenth (Zpos 1)) (tenth (Zpos 2))) (tenth (Zpos 3))) (@ctx_empty NT) (Ok [:: @Scalar NT l]).
  { apply: (one_value _ (lit (Zpos 3))); first by apply: (one_value (lit (Zpos 1)) (lit (Zpos 2))); reflexivity. reflexivity. }
  have Hr : outcome (@AOp NT OAdd (tenth (Zpos 1)) (@AOp NT OAdd (tenth (Zpos 2)) (tenth (Zpos 3)))) (@ctx_empty NT) (Ok [:: @Scalar NT r]).
  { apply: (one_value (lit (Zpos 1))); first by apply: (one_value (lit (Zpos 2)) (lit (Zpos 3))); reflexivity. reflexivity. }
  have := outcome_unique _ _ _ _ (proj1 (H _) Hl) Hr => E.
  have I (y z : @Num.T NT) : @Ok EvalError _ [:: @Scalar NT y] = Ok [:: @Scalar NT z] -> y = z by case.
  have {}E := I l r E.
  have : f_same l r = true by rewrite E; vm_compute.
  by vm_compute.
Qed.
End Examples.
