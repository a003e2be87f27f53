(** * PropFloat: C21 and C27 - what the operations do in binary64. *)
From Coq Require Import List NArith ZArith Bool Arith Lia String SpecFloat Reals.
From Verif Require Import Base BaseFacts F64 Num Types Maths Helpers Parser Eval SpecEval GrammarSpec ShapeSpec MathsForms FloatFacts Toy
  CalcSpec PropCalc EvalProofs.
Import ListNotations.
Local Open Scope string_scope.
Local Open Scope list_scope.

(** ** Specification *)
(** All components of [v] satisfy [P]. *)
Definition all_components {N : Num} (P : T -> Prop) (v : Value N) : Prop :=
  match v with
  | Scalar a => P a
  | Vector l => Forall P l
  | Matrix m => Forall (Forall P) m
  end.
(** [z] has the same shape as [x] and [y], and its components are [f] of
    theirs. *)
Definition list_comps {A} (R : A -> A -> A -> Prop) (x y z : list A) : Prop :=
  List.length y = List.length x /\ List.length z = List.length x /\
  forall i a b c, nth_error x i = Some a -> nth_error y i = Some b -> nth_error z i = Some c -> R a b c.
Definition components {N : Num} (f : T -> T -> T) (x y z : Value N) : Prop :=
  match x, y, z with
  | Scalar a, Scalar b, Scalar c => c = f a b
  | Vector a, Vector b, Vector c => list_comps (fun a b c => c = f a b) a b c
  | Matrix a, Matrix b, Matrix c => list_comps (list_comps (fun a b c => c = f a b)) a b c
  | _, _, _ => False
  end.

Section Gen.
Context {N : Num}.
Lemma com_nth (l : list T) i x : nth_error l i = Some x -> com l i = x.
Proof. intros H. unfold com. now apply nth_error_nth. Qed.
Lemma tab_comps (f : T -> T -> T) a b n : List.length a = n -> List.length b = n ->
  list_comps (fun a b c => c = f a b) a b (tab n (fun i => f (com a i) (com b i))).
Proof.
  intros Ha Hb. split; [congruence|]. split; [rewrite tab_length; congruence|].
  intros i x y z Hx Hy Hz. assert (i < n)%nat by (rewrite <- Ha; apply nth_error_Some; congruence).
  rewrite tab_nth_error in Hz by assumption. rewrite (com_nth _ _ _ Hx), (com_nth _ _ _ Hy) in Hz. congruence.
Qed.
Lemma ent_com m i r : nth_error m i = Some r -> forall j, @ent N m i j = com r j.
Proof. intros H j. unfold ent, com. now rewrite (nth_error_nth _ _ [] H). Qed.
Lemma shape_nth {A} (m : list (list A)) r c i x : shape m r c -> nth_error m i = Some x -> List.length x = c.
Proof. intros [_ H] Hx. rewrite Forall_forall in H. apply H. now apply nth_error_In in Hx. Qed.
Lemma tab2_comps (f : T -> T -> T) a b r c : shape a r c -> shape b r c ->
  list_comps (list_comps (fun a b c => c = f a b)) a b (tab2 r c (fun i j => f (ent a i j) (ent b i j))).
Proof.
  intros Ha Hb. split; [destruct Ha, Hb; congruence|]. split; [unfold tab2; rewrite tab_length; symmetry; apply Ha|].
  intros i x y z Hx Hy Hz.
  assert (i < r)%nat by (rewrite <- (proj1 Ha); apply nth_error_Some; congruence).
  unfold tab2 in Hz. rewrite tab_nth_error in Hz by assumption. injection Hz as <-.
  rewrite (tab_ext c (fun j => f (ent a i j) (ent b i j)) (fun j => f (com x j) (com y j))).
  - apply tab_comps; [exact (shape_nth a r c i x Ha Hx)|exact (shape_nth b r c i y Hb Hy)].
  - intros j _. now rewrite (ent_com a i x Hx), (ent_com b i y Hy).
Qed.
Lemma list_comps_weaken {A} (R R' : A -> A -> A -> Prop) x y z :
  (forall i a b c, nth_error x i = Some a -> nth_error y i = Some b -> nth_error z i = Some c -> R a b c -> R' a b c) ->
  list_comps R x y z -> list_comps R' x y z.
Proof. intros H (H1 & H2 & H3). repeat split; auto. intros i a b c Ha Hb Hc. eapply H; eauto. Qed.
Lemma components_ext (P : T -> Prop) (f g : T -> T -> T) x y z : (forall a b, P b -> f a b = g a b) -> all_components P y ->
  components f x y z -> components g x y z.
Proof.
  intros H Hy. destruct x as [ma|a|a], y as [mb|b|b], z as [mc|c|c]; cbn; try easy.
  - apply list_comps_weaken. intros i ra rb rc Ha Hb Hc. apply list_comps_weaken. intros j xa xb xc Hxa Hxb Hxc ->.
    apply H. cbn in Hy. rewrite Forall_forall in Hy. specialize (Hy rb (nth_error_In _ _ Hb)). rewrite Forall_forall in Hy.
    apply Hy. now apply nth_error_In in Hxb.
  - apply list_comps_weaken. intros j xa xb xc Hxa Hxb Hxc ->.
    apply H. cbn in Hy. rewrite Forall_forall in Hy. apply Hy. now apply nth_error_In in Hxb.
  - intros ->. now apply H.
Qed.
Lemma add_components (x y : Value N) k : has_kind x k -> has_kind y k -> exists z, add x y = Ok z /\ components nadd x y z.
Proof.
  destruct x as [ma|a|a], y as [mb|b|b], k; cbn; try easy.
  - intros (Hr & Hc & Ha) (_ & _ & Hb). rewrite (madd_form ma mb r c) by assumption. eexists; split; [reflexivity|]. now apply tab2_comps.
  - intros (_ & <-) (_ & Hb). rewrite vadd_form by congruence. eexists; split; [reflexivity|]. now apply tab_comps.
  - intros _ _. eexists; split; reflexivity.
Qed.
Lemma sub_components (x y : Value N) k : has_kind x k -> has_kind y k ->
  exists z, sub x y = Ok z /\ components (fun a b => nadd a (nmul b nm1)) x y z.
Proof.
  destruct x as [ma|a|a], y as [mb|b|b], k; cbn; try easy.
  - intros (Hr & Hc & Ha) (_ & _ & Hb). rewrite (msub_form ma mb r c) by assumption. eexists; split; [reflexivity|].
    now apply (tab2_comps (fun a b => nadd a (nmul b nm1))).
  - intros (_ & <-) (_ & Hb). rewrite vsub_form by congruence. eexists; split; [reflexivity|].
    now apply (tab_comps (fun a b => nadd a (nmul b nm1))).
  - intros _ _. eexists; split; reflexivity.
Qed.
End Gen.

Section Floats.
Variable lm : Libm.
Local Instance NF : Num := F64 lm.
Notation V := (Value NF).
(** All components are floats ([spec_float] has unused encodings). *)
Definition floats (v : V) : Prop := all_components (N := NF) (fun x => fvalid x = true) v.

(** ** C21 *)
Theorem c21_addition (x y : V) k : has_kind x k -> has_kind y k ->
  exists z, add x y = Ok z /\ components (N := NF) fadd x y z.
Proof. exact (add_components x y k). Qed.

Theorem c21_subtraction (x y : V) k : has_kind x k -> has_kind y k -> floats y ->
  exists z, sub x y = Ok z /\ components (N := NF) fsub x y z.
Proof.
  intros Hx Hy Hf. destruct (sub_components x y k Hx Hy) as (z & E & H). exists z; split; [exact E|].
  apply (@components_ext NF (fun x : f64 => fvalid x = true) (fun a b => nadd a (nmul b nm1)) fsub x y z); try assumption.
  intros a b Hb. change (fadd a (fmul b fm1) = fsub a b). now rewrite fmul_m1, fsub_fadd_opp.
Qed.

(** Negation flips every sign and nothing else. *)
Theorem c21_negation (x : V) : floats x ->
  neg x = Ok (match x with
              | Scalar a => Scalar (fopp a)
              | Vector l => Vector (map fopp l)
              | Matrix m => Matrix (map (map fopp) m)
              end).
Proof.
  intros H. destruct x as [m|l|a]; cbn [neg].
  - do 2 f_equal. apply map_ext_in. intros r Hr. apply map_ext_in. intros a Ha.
    unfold floats, all_components in H. rewrite Forall_forall in H. specialize (H r Hr). rewrite Forall_forall in H. now apply fm1_mul, H.
  - do 2 f_equal. apply map_ext_in. intros a Ha. cbn in H. rewrite Forall_forall in H. now apply fm1_mul, H.
  - do 2 f_equal. now apply fm1_mul.
Qed.
Theorem c21_negation_flips_the_sign (a : f64) : fis_nan a = false ->
  fsign_neg (fopp a) = negb (fsign_neg a) /\ fabs (fopp a) = fabs a.
Proof. destruct a as [s|s| |s m e]; cbn; try discriminate; auto. Qed.

Theorem c21_addition_commutes (x y : V) k k' : has_kind x k -> has_kind y k' ->
  forall z, add x y = Ok z <-> add y x = Ok z.
Proof.
  intros Hx Hy z. destruct x as [ma|a|a], y as [mb|b|b]; try (split; discriminate).
  - destruct k as [| |r c], k' as [| |r' c']; cbn in Hx, Hy; try easy. destruct Hx as (Hr & Hc & Ha), Hy as (Hr' & Hc' & Hb).
    change (add (Matrix ma) (Matrix mb)) with (madd ma mb). change (add (Matrix mb) (Matrix ma)) with (madd mb ma).
    destruct (Nat.eq_dec r r') as [<-|Hn]; [destruct (Nat.eq_dec c c') as [<-|Hn]|].
    + rewrite (madd_form ma mb r c), (madd_form mb ma r c) by assumption.
      rewrite (tab2_ext r c (fun i j => nadd (ent mb i j) (ent ma i j)) (fun i j => nadd (ent ma i j) (ent mb i j))); [reflexivity|].
      intros; apply fadd_comm.
    + rewrite (madd_err ma mb r c r c'), (madd_err mb ma r c' r c) by auto. reflexivity.
    + rewrite (madd_err ma mb r c r' c'), (madd_err mb ma r' c' r c) by auto. reflexivity.
  - change (add (Vector a) (Vector b)) with (vadd a b). change (add (Vector b) (Vector a)) with (vadd b a).
    destruct (Nat.eq_dec (List.length a) (List.length b)) as [E|E].
    + rewrite (vadd_form a b), (vadd_form b a) by congruence. rewrite E.
      rewrite (tab_ext (List.length b) (fun i => nadd (com b i) (com a i)) (fun i => nadd (com a i) (com b i))); [reflexivity|].
      intros; apply fadd_comm.
    + rewrite (vadd_err a b), (vadd_err b a) by congruence. reflexivity.
  - cbn. unfold sadd. change (@nadd NF) with fadd. rewrite (fadd_comm b a). reflexivity.
Qed.

Theorem c21_double_negation (x y : V) : floats x -> neg x = Ok y -> neg y = Ok x.
Proof.
  intros Hx H. pose proof (c21_negation x Hx) as E. rewrite E in H. injection H as <-.
  rewrite c21_negation.
  - destruct x as [m|l|a]; cbn.
    + do 2 f_equal. rewrite map_map. rewrite <- (map_id m) at 2. apply map_ext. intros r. rewrite map_map. rewrite <- (map_id r) at 2.
      apply map_ext. apply fopp_involutive.
    + do 2 f_equal. rewrite map_map. rewrite <- (map_id l) at 2. apply map_ext. apply fopp_involutive.
    + now rewrite fopp_involutive.
  - destruct x as [m|l|a]; cbn in *.
    + apply Forall_forall. intros r Hr. apply in_map_iff in Hr as (r' & <- & Hr). apply Forall_forall. intros a Ha.
      apply in_map_iff in Ha as (a' & <- & Ha). apply fopp_valid. rewrite Forall_forall in Hx. specialize (Hx _ Hr). rewrite Forall_forall in Hx. auto.
    + apply Forall_forall. intros a Ha. apply in_map_iff in Ha as (a' & <- & Ha). apply fopp_valid. rewrite Forall_forall in Hx. auto.
    + now apply fopp_valid.
Qed.

(** What IEEE addition is (Flocq): the exact sum rounded to nearest even, or
    an infinity when that is too large. *)
Theorem c21_ieee_addition (x y : f64) : fvalid x = true -> fvalid y = true -> fis_finite x = true -> fis_finite y = true ->
  let r := RN (fR x + fR y) in
  ((Rabs r < 2 ^ 1024)%R -> fis_finite (fadd x y) = true /\ fR (fadd x y) = r) /\
  ((2 ^ 1024 <= Rabs r)%R -> fadd x y = S754_infinity (fsign_neg x) /\ fsign_neg x = fsign_neg y).
Proof.
  intros Hx Hy Fx Fy r. pose proof (fadd_spec x y Hx Hy Fx Fy) as H. cbv zeta in H. fold r in H.
  assert (E : Flocq.Core.Raux.bpow Flocq.Core.Zaux.radix2 emax64 = (2 ^ 1024)%R).
  { change emax64 with (Z.of_nat 1024).
    rewrite Flocq.Core.Raux.bpow_powerRZ. change (IZR (Flocq.Core.Zaux.radix_val Flocq.Core.Zaux.radix2)) with 2%R. symmetry. apply pow_powerRZ. }
  rewrite E in H. split; intros Hr.
  - rewrite Flocq.Core.Raux.Rlt_bool_true in H by assumption. exact H.
  - rewrite Flocq.Core.Raux.Rlt_bool_false in H by assumption. exact H.
Qed.

(** C31: for a scalar function the derivative is (f(s+h) - f(s)) / h with the
    IEEE operations. *)
Theorem c31_scalar_function_ieee {En : Env} (e at_ : AST NF) x s c y yh : fvalid y = true ->
  outcome at_ c (Ok [Scalar s]) ->
  outcome e (set_num c x s) (Ok [Scalar y]) -> outcome e (set_num c x (fadd s (step_h (N := NF)))) (Ok [Scalar yh]) ->
  outcome (ADer e x at_) c (Ok [Scalar (fdiv (fsub yh y) (step_h (N := NF)))]).
Proof.
  intros Hy Ha Hx Hxh. pose proof (c31_scalar_function e at_ x s c y yh Ha Hx Hxh) as H. revert H.
  change (@nadd NF yh (@nmul NF y (@nm1 NF))) with (fadd yh (fmul y fm1)). rewrite fmul_m1 by assumption. rewrite <- fsub_fadd_opp. exact (fun H => H).
Qed.

(** ** C27 *)
(** [v?i] is component [k] exactly if [i] is the integer [k] (0, 1, ...) and
    carries no minus sign. *)
Theorem c27_indexing (l : list f64) (i : f64) (v : V) : (Z.of_nat (List.length l) < 2 ^ 63)%Z ->
  get (Vector (N := NF) l) (Scalar (N := NF) i) = Ok v <->
  exists k x, fis_finite i = true /\ fsign_neg i = false /\ fR i = INR k /\ nth_error l k = Some x /\ v = Scalar x.
Proof.
  intros Hl. cbn [get]. change (@nrem1_zero NF) with f_rem1_zero. change (@nsign_neg NF) with fsign_neg. change (@nto_usize NF) with f_to_usize.
  assert (K : forall z, (0 <= z)%Z -> f_to_usize i = z -> f_rem1_zero i = true -> fsign_neg i = false -> fR i = IZR z ->
    (match l with [] => Panic | _ :: _ => if Z.gtb z (Z.of_nat (List.length l) - 1) then Err "Index out of bounds for vector!"
       else do x <- idx l (Z.to_nat z); Ok (Scalar (N := NF) x) end) = Ok v <->
    exists k x, fR i = INR k /\ nth_error l k = Some x /\ v = Scalar (N := NF) x).
  { intros z Hz _ _ _ HR. destruct l as [|x0 l]; [split; [discriminate|intros (k & x & _ & H & _); destruct k; discriminate]|].
    destruct (Z.gtb_spec z (Z.of_nat (List.length (x0 :: l)) - 1)) as [G|G].
    - split; [discriminate|]. intros (k & x & Hk & Hx & _). exfalso. rewrite HR, INR_IZR_INZ in Hk. apply eq_IZR in Hk. subst z.
      assert (k < List.length (x0 :: l))%nat by (apply nth_error_Some; congruence). lia.
    - destruct (nth_error (x0 :: l) (Z.to_nat z)) as [x|] eqn:E.
      + unfold idx. rewrite E. cbn [unwrap bind]. split.
        * intros [= <-]. exists (Z.to_nat z), x. repeat split; auto. rewrite HR, INR_IZR_INZ, Z2Nat.id by lia. reflexivity.
        * intros (k & x' & Hk & Hx & ->). rewrite HR, INR_IZR_INZ in Hk. apply eq_IZR in Hk. subst z. rewrite Nat2Z.id in E. congruence.
      + apply nth_error_None in E. cbn [List.length] in *. lia. }
  destruct i as [s|s| |s m e].
  - destruct s; cbn [f_rem1_zero fsign_neg negb orb].
    + split; [discriminate|]. intros (k & x & _ & H & _). discriminate.
    + rewrite (K 0%Z) by (reflexivity || lia). split; intros (k & x & H); exists k, x; cbn [fis_finite]; tauto.
  - split; [discriminate|]. intros (k & x & H & _). discriminate.
  - split; [discriminate|]. intros (k & x & H & _). discriminate.
  - destruct s; cbn [fsign_neg].
    + rewrite orb_true_r. split; [discriminate|]. intros (k & x & _ & H & _). discriminate.
    + destruct (f_rem1_zero (S754_finite false m e)) eqn:Er; cbn [negb orb].
      * pose proof (mag_trunc_R m e Er) as HR.
        assert (Hpos : (0 <= mag_trunc m e)%Z) by (unfold mag_trunc; destruct (Z.ltb_spec e 0); [apply Z.div_pos; [lia|apply Z.pow_pos_nonneg; lia]|apply Z.mul_nonneg_nonneg; [lia|apply Z.pow_nonneg; lia]]).
        destruct (Z_le_gt_dec (mag_trunc m e) 18446744073709551615) as [Hs|Hs].
        -- assert (Hu : f_to_usize (S754_finite false m e) = mag_trunc m e) by (unfold f_to_usize, f_cast; lia).
           rewrite Hu. rewrite (K (mag_trunc m e)) by (assumption || reflexivity). cbn [fis_finite].
           split; intros (k & x & H); exists k, x; tauto.
        -- assert (Hu : f_to_usize (S754_finite false m e) = 18446744073709551615%Z) by (unfold f_to_usize, f_cast; lia).
           rewrite Hu. split.
           ++ destruct l as [|x0 l]; [discriminate|].
              match goal with |- context [Z.gtb ?a ?b] => assert (G : Z.gtb a b = true); [|rewrite G; discriminate] end.
              apply Z.gtb_lt. clear -Hl. change (@T NF) with f64 in *. lia.
           ++ intros (k & x & _ & _ & Hk & Hx & _). exfalso. rewrite HR, INR_IZR_INZ in Hk. apply eq_IZR in Hk.
              assert (k < List.length l)%nat by (apply nth_error_Some; congruence). lia.
      * split; [discriminate|]. intros (k & x & _ & _ & Hk & _). exfalso. rewrite INR_IZR_INZ in Hk.
        apply mag_trunc_int in Hk as [Hk _]. congruence.
Qed.
(** In all other cases (the vector is not empty) it is an error. *)
Theorem c27_other_indices_are_errors (l : list f64) (i : f64) : l <> [] -> (Z.of_nat (List.length l) < 2 ^ 63)%Z ->
  (forall v, get (Vector (N := NF) l) (Scalar (N := NF) i) <> Ok v) ->
  exists e, get (Vector (N := NF) l) (Scalar (N := NF) i) = Err e.
Proof.
  intros Hl Hlen H. cbn [get] in *. destruct (_ || _)%bool; [eauto|]. destruct l as [|x0 l]; [congruence|].
  destruct (Z.gtb _ _) eqn:E; [eauto|]. exfalso. rewrite Z.gtb_ltb in E. apply Z.ltb_ge in E.
  assert (Hn : (0 <= f_to_usize i)%Z) by (unfold f_to_usize, f_cast; destruct i as [|[]| |]; lia).
  change (@nto_usize NF) with f_to_usize in *. change (@T NF) with f64 in *.
  destruct (nth_error (x0 :: l) (Z.to_nat (f_to_usize i))) as [x|] eqn:En.
  - eapply H. unfold idx. rewrite En. reflexivity.
  - apply nth_error_None in En. cbn [List.length] in *. lia.
Qed.
(** A wrong kind of operand is an error. *)
Theorem c27_only_vectors_by_scalars (x y : V) : (forall l i, ~ (x = Vector l /\ y = Scalar i)) ->
  get x y = Err "Can only index vector with scalar!".
Proof. intros H. destruct x as [m|l|s], y as [m'|l'|s']; try reflexivity. exfalso. eapply H; eauto. Qed.
End Floats.

Module Examples.
Local Existing Instance NT.
Local Existing Instance ET.
(** [4, 5, 6] ? 2 = 6, by the theorem; ? -0.0 and ? 0.5 are errors. *)
Example get_two : get (ve [4; 5; 6]%Z) (sc 2) = Ok (sc 6).
Proof. apply (c27_indexing toy (ns [4; 5; 6]%Z) (num 2)); [cbn; lia|]. exists 2%nat, (num 6). repeat split.
  change (num 2) with (S754_finite false 4503599627370496 (-51)). rewrite (mag_trunc_R 4503599627370496 (-51)) by reflexivity.
  change (mag_trunc 4503599627370496 (-51)) with 2%Z. cbn. reflexivity.
Qed.
Example get_minus_zero : get (ve [4; 5; 6]%Z) (Scalar (S754_zero true)) = Err "Index must be a positive Integer!".
Proof. reflexivity. Qed.
(** The same with the text "[4,5,6]?(0*(-1))": 0 * -1 is -0. *)
Example get_minus_zero_text :
  @quick_eval NT ET 20 (lit "[4,5,6]?(0*(-1))") (mkCtx [] []) = Err (QEvalError (MathError "Index must be a positive Integer!")).
Proof. apply err_of_eq. vm_compute. reflexivity. Qed.
(** Finding: 49 / [49] is not supported but [49] / 49 is, and gives
    0.9999999999999999: vectors are multiplied by the reciprocal. *)
Example vector_division_rounds_twice :
  div (ve [49]%Z) (sc 49) = Ok (Vector [S754_finite false 9007199254740991 (-53)]) /\ div (sc 49) (sc 49) = Ok (sc 1).
Proof. split; apply val_ok_eq; vm_compute; reflexivity. Qed.
(** The hypotheses of C21 hold for example for a 2x2 matrix. *)
Example c21_case : exists z, sub (ma [[1; 2]; [3; 4]]%Z) (ma [[4; 3]; [2; 1]]%Z) = Ok z /\
  components (N := NT) fsub (ma [[1; 2]; [3; 4]]%Z) (ma [[4; 3]; [2; 1]]%Z) z.
Proof.
  apply (c21_subtraction toy _ _ (KM 2 2)).
  - cbn. repeat split; repeat constructor.
  - cbn. repeat split; repeat constructor.
  - unfold floats. cbn [all_components ma map ns]. repeat constructor.
Qed.
End Examples.
