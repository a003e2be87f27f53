(** * PropPower: C25 in binary64 - matrix powers for every double as exponent. *)
From Coq Require Import List NArith ZArith Bool Arith Lia String SpecFloat Reals Lra.
From Flocq Require Import Core IEEE754.BinarySingleNaN.
From Verif Require Import Base BaseFacts F64 Num Types Maths GrammarSpec ShapeSpec MathsForms FloatFacts PrintFloat Toy.
Import ListNotations.
Local Open Scope string_scope.
Local Open Scope list_scope.

(** ** Specification *)
(** [m] is the identity matrix with [n] rows. *)
Definition is_identity {N : Num} (n : nat) (m : list (list T)) : Prop :=
  shape m n n /\
  forall i j row x, nth_error m i = Some row -> nth_error row j = Some x -> x = if Nat.eqb i j then n1 else n0.
(** [w] is [v] multiplied [k] times onto the identity. *)
Inductive power {N : Num} (n : nat) (v : list (list T)) : nat -> list (list T) -> Prop :=
| power_0 m : is_identity n m -> power n v 0 m
| power_S k m m' : power n v k m -> mult (Matrix m) (Matrix v) = Ok (Matrix m') -> power n v (S k) m'.

Section Gen.
Context {N : Num}.
Lemma tab2_identity n : is_identity n (tab2 n n (fun i j => if Nat.eqb i j then n1 else n0)).
Proof.
  split; [apply tab2_shape|]. intros i j row x Hr Hx.
  assert (Hi : i < n).
  { assert (i < List.length (tab2 n n (fun i j => if Nat.eqb i j then n1 else n0))) by (apply nth_error_Some; congruence).
    now rewrite (proj1 (tab2_shape _ _ _)) in H. }
  assert (Hl : List.length row = n).
  { pose proof (proj2 (tab2_shape n n (fun i j => if Nat.eqb i j then n1 else n0))) as F. rewrite Forall_forall in F. apply F. eapply nth_error_In; eauto. }
  assert (Hj : j < n) by (rewrite <- Hl; apply nth_error_Some; congruence).
  rewrite <- (ent_tab2 n n (fun i j => if Nat.eqb i j then n1 else n0) i j Hi Hj).
  unfold ent. rewrite (nth_error_nth _ _ _ Hr). symmetry. now apply nth_error_nth.
Qed.
Lemma power_form n (a : list (list T)) : 0 < n -> shape a n n -> forall k, power n a k (tab2 n n (mat_pow n (ent a) k)).
Proof.
  intros Hn Ha. induction k as [|k IH]; [constructor; apply tab2_identity|].
  econstructor; [exact IH|]. cbn [mult]. rewrite (mmmult_form _ _ n n n) by (auto using tab2_shape).
  do 2 f_equal. apply tab2_ext. intros i j Hi Hj. cbn [mat_pow]. unfold mat_mul. apply nsum_ext. intros p Hp. now rewrite ent_tab2.
Qed.
Lemma pow_power n (a : list (list T)) (b : T) : 0 < n -> shape a n n -> neqb (nround b) b = true ->
  exists m, pow (Matrix a) (Scalar b) = Ok (Matrix m) /\ power n a (Z.to_nat (nto_i32 b)) m.
Proof. intros Hn Ha Hb. eexists. split; [cbn [pow]; exact (mspow_form a n b Hn Ha Hb)|]. now apply power_form. Qed.
End Gen.

(** ** Integers among the doubles *)
Lemma fround_whole b : fvalid b = true -> fis_finite b = true ->
  (feqb (fround b) b = true <-> exists z, fR b = IZR z).
Proof.
  intros Hv Hf. destruct (fround_spec b Hv Hf) as (V & F & _ & z & Hz & Hd). rewrite feqb_spec by assumption. split.
  - intros E. exists z. congruence.
  - intros [k Hk]. rewrite Hz, Hk in *. f_equal. rewrite <- minus_IZR, <- abs_IZR in Hd.
    assert (D : (IZR (Z.abs (z - k)) < IZR 1)%R) by (apply Rle_lt_trans with (1 := Hd); lra). apply lt_IZR in D. lia.
Qed.
Lemma to_i32_whole b z : fis_finite b = true -> fR b = IZR z ->
  f_to_i32 b = Z.max (-2147483648) (Z.min 2147483647 z).
Proof.
  intros Hf Hz. destruct b as [s|s| |s m e]; try discriminate.
  - cbn in Hz. apply (eq_IZR 0) in Hz. subst z. reflexivity.
  - destruct s.
    + assert (E : fR (S754_finite false m e) = IZR (- z)).
      { rewrite opp_IZR, <- Hz. unfold fR. cbn [SF2R]. rewrite <- F2R_Zopp. reflexivity. }
      apply mag_trunc_int in E as [_ E]. unfold f_to_i32, f_cast. rewrite E. f_equal. lia.
    + apply mag_trunc_int in Hz as [_ E]. unfold f_to_i32, f_cast. now rewrite E.
Qed.

Section Floats.
Context (lm : Libm).
Local Instance NF : Num := F64 lm.
Notation MatF := (@Matrix NF). Notation ScaF := (@Scalar NF).

(** [M^b]: for a whole number [b] it is [M] multiplied [b] times, but none or
    negative [b] gives the identity and more than 2^31-1 (also infinity) counts
    as 2^31-1; any other double is an error. *)
Theorem c25_binary64 n (a : list (list f64)) (b : f64) : 0 < n -> shape a n n -> fvalid b = true ->
  (forall k, fis_finite b = true -> fR b = INR k -> (Z.of_nat k < 2 ^ 31)%Z ->
     exists m, pow (MatF a) (ScaF b) = Ok (MatF m) /\ power (N := NF) n a k m) /\
  (forall z, fis_finite b = true -> fR b = IZR z -> (z <= 0)%Z ->
     exists m, pow (MatF a) (ScaF b) = Ok (MatF m) /\ is_identity (N := NF) n m) /\
  (forall z, fis_finite b = true -> fR b = IZR z -> (2 ^ 31 <= z)%Z ->
     exists m, pow (MatF a) (ScaF b) = Ok (MatF m) /\ power (N := NF) n a (Z.to_nat (2 ^ 31 - 1)) m) /\
  (b = S754_infinity false ->
     exists m, pow (MatF a) (ScaF b) = Ok (MatF m) /\ power (N := NF) n a (Z.to_nat (2 ^ 31 - 1)) m) /\
  (b = S754_infinity true ->
     exists m, pow (MatF a) (ScaF b) = Ok (MatF m) /\ is_identity (N := NF) n m) /\
  (fis_nan b = true \/ (fis_finite b = true /\ forall z, fR b <> IZR z) ->
     pow (MatF a) (ScaF b) = Err "Exponent must be an integer!").
Proof.
  intros Hn Ha Hb.
  assert (W : forall z, fis_finite b = true -> fR b = IZR z ->
    exists m, pow (MatF a) (ScaF b) = Ok (MatF m) /\ power (N := NF) n a (Z.to_nat (Z.max (-2147483648) (Z.min 2147483647 z))) m).
  { intros z Hf Hz. rewrite <- (to_i32_whole b z Hf Hz). apply (pow_power (N := NF) n a b Hn Ha).
    change (feqb (fround b) b = true). apply fround_whole; eauto. }
  assert (I : forall m, power (N := NF) n a 0 m -> is_identity (N := NF) n m) by (intros m H; inversion H; assumption).
  split; [|split; [|split; [|split; [|split]]]].
  - intros k Hf Hk Hl. rewrite INR_IZR_INZ in Hk. destruct (W _ Hf Hk) as (m & H1 & H2). exists m. split; [exact H1|].
    rewrite Z.max_r, Z.min_r, Nat2Z.id in H2 by lia. exact H2.
  - intros z Hf Hz Hl. destruct (W _ Hf Hz) as (m & H1 & H2). exists m. split; [exact H1|]. apply I.
    replace 0 with (Z.to_nat (Z.max (-2147483648) (Z.min 2147483647 z))) by lia. exact H2.
  - intros z Hf Hz Hl. destruct (W _ Hf Hz) as (m & H1 & H2). exists m. split; [exact H1|].
    rewrite Z.max_r, Z.min_l in H2 by lia. exact H2.
  - intros ->. exact (pow_power (N := NF) n a (S754_infinity false) Hn Ha eq_refl).
  - intros ->. destruct (pow_power (N := NF) n a (S754_infinity true) Hn Ha eq_refl) as (m & H1 & H2). exists m. split; [exact H1|]. now apply I.
  - intros H. cbn [pow]. apply (mspow_nonint (N := NF)). change (feqb (fround b) b = false). destruct H as [H|[Hf H]].
    + destruct b; try discriminate. reflexivity.
    + destruct (feqb (fround b) b) eqn:E; [|reflexivity]. apply fround_whole in E as [z Hz]; [|assumption..]. now destruct (H z).
Qed.
End Floats.

Module Examples.
Local Existing Instance NT.
(** [[1, 1], [0, 1]]^3 = [[1, 3], [0, 1]], ^-1 is the identity and ^0.5 an error. *)
Definition two := f_of_Z 2. Definition three := f_of_Z 3.
Example jordan : list (list f64) := [[f1; f1]; [f0; f1]].
Example c25_cubed : exists m, pow (@Matrix NT jordan) (@Scalar NT three) = Ok (@Matrix NT m) /\ power (N := NT) 2 jordan 3 m.
Proof.
  assert (V : fvalid three = true) by (vm_compute; reflexivity).
  assert (S : shape jordan 2 2) by (split; [reflexivity|repeat constructor]).
  destruct (c25_binary64 toy 2 jordan three ltac:(lia) S V) as [H _].
  apply (H 3); [vm_compute; reflexivity| |lia]. unfold fR. replace three with (S754_finite false 6755399441055744 (-51)) by (vm_compute; reflexivity).
  cbn [SF2R cond_Zopp]. unfold F2R. cbn. lra.
Qed.
Example c25_half : pow (@Matrix NT jordan) (@Scalar NT (fdiv f1 two)) = Err "Exponent must be an integer!".
Proof. reflexivity. Qed.
End Examples.
