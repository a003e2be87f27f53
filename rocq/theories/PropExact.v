(** * PropExact: C22-C26, C38, C49 - linear algebra and rounding in exact
    arithmetic.

    [sca L x], [vec L v], [mat L A] are the values of the crate for a number, a
    column vector and a matrix over an arbitrary Archimedean ordered field [F]
    ([ExactSpec.v]); [L] holds arbitrary elementary functions.  [mult], [det],
    [inv], [pow], [cross], ... are the functions of maths.rs at the instance
    [Exact L]. *)
From Coq Require Import ZArith Lia List String Ring_theory Ring.
Set Warnings "-notation-overridden,-ambiguous-paths".
From mathcomp Require Import all_ssreflect all_algebra zify.
From Verif Require Import Base BaseFacts F64 Num Types Maths Eval SpecEval EvalProofs GrammarSpec MathsForms Exact ExactSpec ExactLinear ExactRound
  ExactElim ExactGauss.
Import GRing.Theory Order.Theory mathcomp.algebra.ssrnum.Num.Theory.
Set Implicit Arguments.
Unset Strict Implicit.
Unset Printing Implicit Defensive.
Local Open Scope ring_scope.

(** Polynomial identities, for any commutative ring. *)
Section Identities.
Variables (R : Type) (rO rI : R) (radd rmul rsub : R -> R -> R) (ropp : R -> R).
Hypothesis RT : ring_theory rO rI radd rmul rsub ropp eq.
Add Ring Rring : RT.
Local Infix "+" := radd. Local Infix "*" := rmul. Local Infix "-" := rsub.
Lemma cross_orth_l (a b c x y z : R) : (b * z - c * y) * a + ((c * x - a * z) * b + (a * y - b * x) * c) = rO.
Proof. ring. Qed.
Lemma cross_orth_r (a b c x y z : R) : (b * z - c * y) * x + ((c * x - a * z) * y + (a * y - b * x) * z) = rO.
Proof. ring. Qed.
Lemma cross_lagrange (a b c x y z : R) :
  (b * z - c * y) * (b * z - c * y) + ((c * x - a * z) * (c * x - a * z) + (a * y - b * x) * (a * y - b * x)) =
  (a * a + (b * b + c * c)) * (x * x + (y * y + z * z)) - (a * x + (b * y + c * z)) * (a * x + (b * y + c * z)).
Proof. ring. Qed.
Lemma cross_det (a b c x y z : R) : let p := b * z - c * y in let q := c * x - a * z in let r := a * y - b * x in
  rO + rI * a * (y * r - q * z) + rI * ropp rI * x * (b * r - q * c) + rI * (ropp rI * ropp rI) * p * (b * z - y * c) = p * p + (q * q + r * r).
Proof. intros; unfold p, q, r; ring. Qed.
Lemma cross_anti (a b x y : R) : ropp (a * y - b * x) = x * b - y * a.
Proof. ring. Qed.
End Identities.
Lemma F_ring (F : archiFieldType) : ring_theory (0 : F) 1 (fun x y => x + y) (fun x y => x * y) (fun x y => x - y) (fun x => - x) eq.
Proof.
  split=> *; rewrite ?add0r ?mul1r ?mulrDl ?addrA ?mulrA ?subrr //; [exact: addrC|exact: mulrC].
Qed.

Section Props.
Variables (F : archiFieldType) (L : lib F).
Notation NX := (Exact L).

(** ** C22: products, sums *)
Theorem c22_matrix_product r c c' (A : 'M[F]_(r, c)) (B : 'M[F]_(c, c')) : (0 < r)%N -> (0 < c)%N ->
  mult (mat L A) (mat L B) = Ok (mat L (A *m B)).
Proof. exact: mult_mm. Qed.
Theorem c22_matrix_vector r c (A : 'M[F]_(r, c)) (v : 'cV[F]_c) : (0 < r)%N ->
  mult (mat L A) (vec L v) = Ok (vec L (A *m v)).
Proof. exact: mult_mv. Qed.
Theorem c22_dot_product n (u v : 'cV[F]_n) : mult (vec L u) (vec L v) = Ok (sca L (dotp u v)).
Proof. exact: mult_vv. Qed.
Theorem c22_scaling (x y : F) n (v : 'cV[F]_n) r c (A : 'M[F]_(r, c)) : (0 < r)%N ->
  [/\ mult (sca L x) (sca L y) = Ok (sca L (x * y)),
      mult (sca L x) (vec L v) = Ok (vec L (x *: v)), mult (vec L v) (sca L x) = Ok (vec L (x *: v)),
      mult (sca L x) (mat L A) = Ok (mat L (x *: A)) & mult (mat L A) (sca L x) = Ok (mat L (x *: A))].
Proof. by move=> Hr; split=> //; [exact: mult_sv|exact: mult_vs|exact: mult_sm|exact: mult_ms]. Qed.
Theorem c22_division (x y : F) n (v : 'cV[F]_n) r c (A : 'M[F]_(r, c)) : (0 < r)%N -> x != 0 ->
  [/\ div (sca L y) (sca L x) = Ok (sca L (y / x)), div (vec L v) (sca L x) = Ok (vec L (x^-1 *: v)) &
      div (mat L A) (sca L x) = Ok (mat L (x^-1 *: A))].
Proof.
  move=> Hr Hx; split; [|exact: div_vs|exact: div_ms]. by rewrite /div /sca /ssdiv (div_fin L).
Qed.
Theorem c22_sums (x y : F) n (u v : 'cV[F]_n) r c (A B : 'M[F]_(r, c)) : (0 < r)%N ->
  [/\ add (sca L x) (sca L y) = Ok (sca L (x + y)), add (vec L u) (vec L v) = Ok (vec L (u + v)) &
      add (mat L A) (mat L B) = Ok (mat L (A + B))] /\
  [/\ sub (sca L x) (sca L y) = Ok (sca L (x - y)), sub (vec L u) (vec L v) = Ok (vec L (u - v)) &
      sub (mat L A) (mat L B) = Ok (mat L (A - B))].
Proof.
  move=> Hr; split; split; [exact: erefl|exact: add_vv|exact: add_mm|by rewrite /sca /= /sadd /= mulrN1|exact: sub_vv|exact: sub_mm].
Qed.

(** ** C23: determinants *)
Theorem c23_determinant n (A : 'M[F]_n) : (0 < n)%N -> det (mat L A) = Ok (sca L (\det A)).
Proof. exact: det_mat. Qed.
Theorem c23_non_square r c (A : 'M[F]_(r, c)) : (0 < r)%N -> r <> c ->
  det (mat L A) = Err "Can't calculate determinant of a non-square matrix!"%string.
Proof. by move=> /ssrnat.ltP Hr Hn; rewrite mat_fins; exact: det_nonsquare Hr (fins_shape L r c _) Hn. Qed.

(** ** C24: inverses *)
Theorem c24_inverse n (A : 'M[F]_n) : (0 < n)%N -> regular_minors A -> inv (mat L A) = Ok (mat L (invmx A)).
Proof. exact: inv_mat. Qed.
(** The result times the matrix, computed by the crate, is the identity. *)
Theorem c24_product_is_identity n (A : 'M[F]_n) B : (0 < n)%N -> regular_minors A -> inv (mat L A) = Ok B ->
  mult (mat L A) B = Ok (mat L (1%:M : 'M[F]_n)) /\ mult B (mat L A) = Ok (mat L (1%:M : 'M[F]_n)).
Proof.
  move=> Hn Hm. rewrite inv_mat // => H. have <- : mat L (invmx A) = B by move: H; case.
  have Hu : A \in unitmx by rewrite unitmxE unitfE minors_det.
  by rewrite !mult_mm // mulmxV // mulVmx.
Qed.
Theorem c24_singular n (A : 'M[F]_n) : (0 < n)%N -> \det A = 0 ->
  inv (mat L A) = Err "Can't calculate inverse of a matrix with determinant 0!"%string.
Proof. exact: inv_singular. Qed.
Theorem c24_non_square r c (A : 'M[F]_(r, c)) : (0 < r)%N -> r <> c ->
  inv (mat L A) = Err "Can't calculate inverse of a non-square matrix!"%string.
Proof. by move=> /ssrnat.ltP Hr Hn; rewrite mat_fins; exact: inv_nonsquare Hr (fins_shape L r c _) Hn. Qed.
(** No row exchanges: with a zero in the corner the result is not finite
    although the matrix is invertible. *)
Theorem c24_zero_pivot (b c d : F) : b != 0 -> c != 0 -> exists v,
  inv (@Matrix NX [:: [:: Fin 0; Fin b]; [:: Fin c; Fin d]]) = Ok v /\ is_inf_or_nan v = true.
Proof.
  move=> Hb Hc. have H1 : (1 == 0 :> F) = false by exact: oner_eq0. have Hlt : 0 < 1 :> F by exact: ltr01.
  rewrite /inv /inv_m /= !mul0r ?add0r ?oppr_eq0 ?mulf_eq0 (negbTE Hb) (negbTE Hc) /= ?eqxx /=.
  rewrite -[(Pos.to_nat 1)%:R]/(1 : F) /eliminate /elim_row /= (negbTE Hc) !mul0r !eqxx /signed_inf !eqxx (negbTE Hb) H1 Hlt /=.
  case: (0 < b); cbn; case: (0 <= b); cbn; eexists; split; reflexivity.
Qed.

(** ** C25: powers *)
Theorem c25_power n (A : 'M[F]_n.+1) k : Z.lt (Z.of_nat k) (Z.pow 2 31) ->
  pow (mat L A) (sca L k%:R) = Ok (mat L (A ^+ k)).
Proof.
  move=> Hk. rewrite /sca -of_Z_nat (pow_mat_gen A (round_int L _)) to_i32_int. congr (Ok (mat L (A ^+ _))).
  rewrite /clamp Z.min_r; last lia. rewrite Z.max_r; last lia. exact: Nat2Z.id.
Qed.
Theorem c25_negative_power n (A : 'M[F]_n.+1) z : Z.lt z 0 -> pow (mat L A) (sca L (of_Z F z)) = Ok (mat L (1%:M : 'M[F]_n.+1)).
Proof.
  move=> Hz. rewrite /sca (pow_mat_gen A (round_int L _)) to_i32_int -[1%:M]/(A ^+ 0). congr (Ok (mat L (A ^+ _))).
  rewrite /clamp. lia.
Qed.
Theorem c25_non_integer r c (A : 'M[F]_(r, c)) (x : F) : (forall z, x != of_Z F z) ->
  pow (mat L A) (sca L x) = Err "Exponent must be an integer!"%string.
Proof. move=> Hx. exact: mspow_nonint (round_nonint L Hx). Qed.

(** ** C26: cross product *)
Theorem c26_cross n (u v : 'cV[F]_n) : (n <= 3)%N ->
  exists w : 'cV[F]_3, [/\ cross (vec L u) (vec L v) = Ok (vec L w), cross (vec L v) (vec L u) = Ok (vec L (- w)),
    dotp w (pad3 u) = 0, dotp w (pad3 v) = 0 &
    dotp w w = dotp (pad3 u) (pad3 u) * dotp (pad3 v) (pad3 v) - dotp (pad3 u) (pad3 v) ^+ 2] /\
    (* right-handed *)
    \det (\matrix_(i < 3, j < 3) [:: pad3 u; pad3 v; w]`_j i 0) = dotp w w.
Proof.
  move=> Hn. pose a := fun i => fn u i 0%N. pose b := fun i => fn v i 0%N.
  have Pu (w : 'cV[F]_n) : pad3 w = \col_(i < 3) fn w i 0%N.
  { apply/colP => i. rewrite !mxE /fn. case: insubP => //= j _ _. by rewrite -[0%N]/(val (0 : 'I_1)) valK. }
  have Nu (w : 'cV[F]_n) i : List.nth i (vfins L n (fun i => fn w i 0%N)) (@n0 NX) = Fin (fn w i 0%N).
  { case: (ltnP i n) => Hi; first exact: vfins_com.
    rewrite nth_overflow ?vfins_length; last by apply/ssrnat.leP. by rewrite n0E /fn insubN // -leqNgt. }
  pose w i := match i with
    | 0%N => a 1%N * b 2%N - a 2%N * b 1%N | 1%N => a 2%N * b 0%N - a 0%N * b 2%N | _ => a 0%N * b 1%N - a 1%N * b 0%N end.
  have C (x y : 'cV[F]_n) : cross (vec L x) (vec L y) = Ok (@Vector NX
     (let f i := fn x i 0%N in let g i := fn y i 0%N in
      [:: Fin (f 1%N * g 2%N - f 2%N * g 1%N); Fin (f 2%N * g 0%N - f 0%N * g 2%N); Fin (f 0%N * g 1%N - f 1%N * g 0%N)])).
  { rewrite !vec_vfins /cross /vcross !vfins_length Nat.eqb_refl /Nat.ltb lebE ltnNge Hn /=. by rewrite !Nu. }
  have D3 (x y : 'cV[F]_3) : dotp x y = x 0 0 * y 0 0 + (x 1 0 * y 1 0 + x 2%:R 0 * y 2%:R 0).
  { rewrite /dotp !big_ord_recl big_ord0 addr0. congr (_ + (_ + _)); congr (x _ _ * y _ _); exact: val_inj. }
  exists (\col_(i < 3) w i). split; last first.
  { pose m i j := match j with 0%N => a i | 1%N => b i | _ => w i end.
    have -> : \matrix_(i < 3, j < 3) [:: pad3 u; pad3 v; \col_(i < 3) w i]`_j i 0 = \matrix_(i < 3, j < 3) m i j.
    { apply/matrixP => i j. rewrite !mxE !Pu. by case: j => -[|[|[|j]]] Hj; rewrite //= !mxE. }
    have := laplace_fin L m (ltn0Sn 2). rewrite D3 !mxE /= => -[<-]. exact: (cross_det (F_ring F)). }
  rewrite !C !D3 !Pu !mxE /=. split.
  - by rewrite vec_mk.
  - have -> : - (\col_(i < 3) w i) = \col_(i < 3) (- w i) by apply/colP => i; rewrite !mxE.
    rewrite (vec_mk L 3 (fun i => - w i)). congr (Ok (Vector _)). cbn. congr [:: Fin _; Fin _; Fin _]; symmetry; exact: (cross_anti (F_ring F)).
  - exact: (cross_orth_l (F_ring F)).
  - exact: (cross_orth_r (F_ring F)).
  - rewrite expr2. exact: (cross_lagrange (F_ring F)).
Qed.
Theorem c26_too_long m n (u : 'cV[F]_m) (v : 'cV[F]_n) : (m <> n \/ 3 < m)%N -> exists e, cross (vec L u) (vec L v) = Err e.
Proof.
  move=> H. rewrite !vec_vfins /= /vcross !vfins_length. case: Nat.eqb_spec => [E|E] /=; last by eexists.
  rewrite /Nat.ltb lebE. case: H => // ->. by eexists.
Qed.

(** ** C38: the elimination of the equation solver *)
Lemma system_fins n (A : 'M[F]_n) (b : 'cV[F]_n) :
  system L A b = fins L n (n + 1) (fun i j => if (j < n)%N then fn A i j else fn b i 0%N).
Proof.
  rewrite /system /fins /tab2 -enum_tab. apply: eq_map => i.
  rewrite tab_mkseq /mkseq iotaD map_cat add0n /= ltnn -[0%N]/(val (0 : 'I_1)) fn_ord. congr (_ ++ _).
  rewrite -(val_enum_ord n) -[in RHS]map_comp. apply: eq_map => j /=. by rewrite ltn_ord fn_ord.
Qed.
Theorem c38_solution n (A : 'M[F]_n) (b x : 'cV[F]_n) : (0 < n)%N -> regular_minors A -> A *m x = b ->
  gauss_algorithm (system L A b) = Ok [seq Fin (x i 0) | i <- enum 'I_n].
Proof.
  move=> Hn Hm Hx. rewrite system_fins. have := vec_vfins L x. rewrite /vec => -[->].
  apply: gauss_fin => //.
  - move=> m Hmn. rewrite (@lead_ext F m _ (fn A)); first exact: minors_lead. by move=> i j Hi Hj; rewrite (leq_trans Hj).
  - move=> r Hr. rewrite ltnNge leq_addr /= -Hx -[r]/(val (Ordinal Hr)) -[0%N in RHS]/(val (0 : 'I_1)) fn_ord mxE.
    apply: eq_bigr => k _. by rewrite ltn_ord -[0%N]/(val (0 : 'I_1)) !fn_ord.
Qed.
(** A line of the augmented matrix that depends on the lines above it. *)
Theorem c38_infinite_solutions n (A : 'M[F]_n) (b : 'cV[F]_n) (j : 'I_n) (a : 'I_n -> F) : (0 < j)%N ->
  (forall k (kn : (k <= n)%N), (k <= j)%N -> \det (leading A kn kn) != 0) ->
  row j A = \sum_(t < n | (t < j)%N) a t *: row t A -> b j 0 = \sum_(t < n | (t < j)%N) a t * b t 0 ->
  gauss_algorithm (system L A b) = Err InfiniteSolutions.
Proof.
  move=> Hj Hm HA Hb. rewrite system_fins.
  apply: (@gauss_dependent _ _ _ _ j (fun t => a (widen_ord (ltnW (ltn_ord j)) t))); first by rewrite Hj ltn_ord.
  - move=> m Hmj. have Hmn : (m <= n)%N := leq_trans Hmj (ltnW (ltn_ord j)).
    rewrite (@lead_ext F m _ (fn A)); last by move=> i k Hi Hk; rewrite (leq_trans Hk).
    have := Hm m Hmn Hmj. congr (\det _ != 0). apply/matrixP => i k. by rewrite !mxE -fn_ord.
  - move=> k Hk. case: (ltnP k n) => Hkn.
    + have := congr1 (fun M : 'rV_n => M 0 (Ordinal Hkn)) HA. rewrite mxE -fn_ord /= => ->.
      rewrite summxE (big_ord_narrow (ltnW (ltn_ord j))) /=. apply: eq_bigr => t _. by rewrite !mxE -fn_ord.
    + rewrite -[0%N]/(val (0 : 'I_1)) fn_ord Hb (big_ord_narrow (ltnW (ltn_ord j))) /=.
      apply: eq_bigr => t _. by rewrite -fn_ord.
Qed.

(** ** C49: rounding *)
Lemma int_of_Z k : exists z, k%:~R = of_Z F z.
Proof. case: k => n; [exists (Z.of_nat n)|exists (Z.opp (Z.of_nat n.+1))]; by rewrite ?of_Z_opp of_Z_nat. Qed.
Lemma Z_of_int z : exists k : int, of_Z F z = k%:~R.
Proof. by case: (Z_cases z) => -[n ->]; [exists n|exists (Negz n)]; rewrite ?of_Z_opp of_Z_nat. Qed.
(** The result is [k / 10^p] for an integer [k], no other multiple of [10^-p] is
    nearer, and in case of a tie it is the one away from zero. *)
Theorem c49_nearest p (x : F) : exists y, value_round (Z.of_nat p) (sca L x) = sca L y /\
  (exists k : int, y = k%:~R / 10%:R ^+ p) /\
  (forall k : int, `|x - y| <= `|x - k%:~R / 10%:R ^+ p|) /\
  (forall k : int, k%:~R / 10%:R ^+ p <> y -> `|x - k%:~R / 10%:R ^+ p| = `|x - y| -> `|x| <= `|y|).
Proof.
  set q := 10%:R ^+ p. have Hq : 0 < q by rewrite exprn_gt0 // ltr0n.
  have Hq0 : q != 0 by rewrite gt_eqF.
  exists (of_Z F (round_Z (x * q)) / q). split; first by rewrite /value_round /sca round_num_fin.
  have N z : `|x - of_Z F z / q| = `|x * q - of_Z F z| / q.
  { have -> : x - of_Z F z / q = (x * q - of_Z F z) / q by rewrite mulrBl mulfK.
    by rewrite normrM normfV (gtr0_norm Hq). }
  split; [|split].
  - have [k ->] := Z_of_int (round_Z (x * q)). by exists k.
  - move=> k. have [z ->] := int_of_Z k. rewrite !N ler_pmul2r ?invr_gt0 //. exact: round_Z_nearest.
  - move=> k. have [z ->] := int_of_Z k. move=> Hne. rewrite !N => /(mulIf (_ : q^-1 != 0)). rewrite invr_eq0 => /(_ Hq0) E.
    have Hz : z <> round_Z (x * q) by move=> Ez; apply: Hne; rewrite Ez.
    have Hh : `|x * q - of_Z F z| = 2%:R^-1.
    { apply/eqP. rewrite eq_le {1}E round_Z_near /=. have := of_Z_apart F Hz.
      have -> : of_Z F z - of_Z F (round_Z (x * q)) = (x * q - of_Z F (round_Z (x * q))) - (x * q - of_Z F z)
        by rewrite opprB [RHS]addrC addrA subrK.
      move=> /le_trans /(_ (ler_norm_sub _ _)). rewrite -E => H. rewrite leNgt; apply/negP => Hlt.
      have := ltr_add Hlt Hlt. by rewrite half_half ltNge H. }
    have := round_Z_half Hh. rewrite normrM (gtr0_norm Hq) => H.
    by rewrite normrM normfV (gtr0_norm Hq) ler_pdivl_mulr.
Qed.
Theorem c49_idempotent p (v : Value NX) : value_round (Z.of_nat p) (value_round (Z.of_nat p) v) = value_round (Z.of_nat p) v.
Proof.
  have Hq : 0 < 10%:R ^+ p :> F by rewrite exprn_gt0 // ltr0n.
  have R x : @round_num NX (Z.of_nat p) (round_num (Z.of_nat p) x) = round_num (Z.of_nat p) x.
  { case: x => [x|||].
    - by rewrite !round_num_fin divfK ?round_Z_of_Z // expf_neq0 // ten_neq0.
    - rewrite /round_num pow10_nat. move: (10%:R ^+ p) Hq => q Hq.
      by rewrite /= /signed_inf (gt_eqF Hq) Hq /= (ltW Hq) /= /signed_inf (gt_eqF Hq) Hq /= (ltW Hq).
    - rewrite /round_num pow10_nat. move: (10%:R ^+ p) Hq => q Hq.
      have Hn : (0 < - q) = false by rewrite oppr_gt0 ltNge (ltW Hq).
      by rewrite /= /signed_inf oppr_eq0 (gt_eqF Hq) Hn /= (ltW Hq) /= /signed_inf oppr_eq0 (gt_eqF Hq) Hn /= (ltW Hq).
    - by []. }
  case: v => [m|l|s]; cbn [value_round].
  - congr Matrix. rewrite List.map_map. apply: List.map_ext => l. rewrite List.map_map. exact: List.map_ext.
  - congr Vector. rewrite List.map_map. exact: List.map_ext.
  - by rewrite R.
Qed.
(** Vectors and matrices are rounded component by component. *)
Theorem c49_components (N : Num) p (l : list (@T N)) (m : list (list (@T N))) :
  exists f, (forall x : @T N, value_round p (Scalar x) = Scalar (f x)) /\
    value_round p (Vector l) = Vector (List.map f l) /\ value_round p (Matrix m) = Matrix (List.map (List.map f) m).
Proof. by exists (round_num p). Qed.
(** In binary64 the product overflows for large numbers, whatever the maths
    library: 1e308 rounded to 3 decimals is infinite. *)
Theorem c49_overflow lm : let big := f_of_dec false 1 308 in
  fis_inf big = false /\ @is_inf_or_nan (F64 lm) (@Scalar (F64 lm) big) = false /\
  @is_inf_or_nan (F64 lm) (value_round 3 (@Scalar (F64 lm) big)) = true.
Proof. by split; [|split]; vm_compute. Qed.
End Props.

(** ** Concrete cases: the rational numbers *)
Module Examples.
Definition L0 : lib [archiFieldType of rat] :=
  {| x_sqrt := id; x_powf := fun a _ => a; x_sin := id; x_cos := id; x_tan := id; x_asin := id; x_acos := id; x_atan := id; x_ln := id;
     x_probe := NaN; x_pi := NaN; x_e := NaN; x_parse := fun _ => None; x_show := fun _ => nil; x_show_sci := fun _ => nil |}.
Notation Q := [archiFieldType of rat].
(** [[2, 1, 0], [4, 1, 1], [0, 1, 3]] *)
Definition a (i j : nat) : Q :=
  match i, j with
  | 0%N, 0%N => 2%:Q | 0%N, 1%N => 1 | 1%N, 0%N => 4%:Q | 1%N, 1%N => 1 | 1%N, 2%N => 1 | 2%N, 1%N => 1 | 2%N, 2%N => 3%:Q | _, _ => 0
  end.
Definition A : 'M[Q]_3 := \matrix_(i < 3, j < 3) a i j.
Example det_lead k : (0 < k)%N -> \det (\matrix_(i < k, j < k) a i j) = if @laplace (Exact L0) k (fun i j => Fin (a i j)) is Fin x then x else 0.
Proof. by move=> Hk; rewrite laplace_fin. Qed.
Example hypotheses : regular_minors A.
Proof.
  move=> k kn. have -> : leading A kn kn = \matrix_(i < k, j < k) a i j by apply/matrixP => i j; rewrite !mxE.
  case: k kn => [|[|[|[|k]]]] // kn; first by rewrite det_mx00. all: rewrite det_lead //; by vm_compute.
Qed.
Example inverse : inv (mat L0 A) = Ok (mat L0 (invmx A)).
Proof. exact: c24_inverse hypotheses. Qed.
Example determinant : det (mat L0 A) = Ok (sca L0 (- 8%:Q)).
Proof. rewrite c23_determinant // det_lead //. Qed.
(** The second line is twice the first. *)
Definition B (F : archiFieldType) : 'M[F]_2 := \matrix_(i < 2, j < 2) (i.+1%:R * j.+1%:R).
Definition b (F : archiFieldType) : 'cV[F]_2 := \col_(i < 2) i.+1%:R.
Example dependent (F : archiFieldType) (L : lib F) : gauss_algorithm (system L (B F) (b F)) = Err InfiniteSolutions.
Proof.
  apply: (@c38_infinite_solutions _ _ _ _ _ 1 (fun _ => 2%:R)) => //.
  - case=> [|[|k]] // kn _; first by rewrite det_mx00 oner_neq0. by rewrite det_mx11 !mxE mulr1 oner_neq0.
  - apply/rowP => j. rewrite mxE summxE big_mkcond !big_ord_recl big_ord0 /=. rewrite addr0 addr0 !mxE. by rewrite mul1r.
  - rewrite mxE big_mkcond !big_ord_recl big_ord0 /=. rewrite addr0 addr0 !mxE. by rewrite mulr1.
Qed.
Example non_integer : forall z, 2%:R^-1 != of_Z Q z.
Proof.
  move=> z. apply/eqP => E. have : `|of_Z Q z - of_Z Q 0| = 2%:R^-1 by rewrite -E subr0.
  case: (Z.eq_dec z 0) => [->|H]; first by rewrite subrr normr0.
  have := of_Z_apart Q H. by move=> H1 H2; move: H1; rewrite H2.
Qed.
End Examples.
