(** * PropShapes: C19, C20, C48 - kinds of values.

    [add], [sub] ... are the public functions of maths.rs; [op_meaning op x y]
    (SpecEval.v) names the one each operator stands for; [has_kind], [op_kind]
    and [regular] are in ShapeSpec.v. *)
From Coq Require Import List NArith ZArith Bool Arith Lia String.
From Verif Require Import Base BaseFacts F64 Num Types Maths Helpers Parser Eval SpecEval EvalTotal GrammarSpec ParserSpec ShapeSpec Shapes
  PropParser Toy.
Import ListNotations.
Local Open Scope string_scope.
Local Open Scope list_scope.

Section Props.
Context {N : Num} {En : Env}.
Notation V := (Value N).

(** C19: every operator of the table succeeds on exactly the documented
    kinds and reports an error (no panic) on all others.  C20: the results have
    the kind of the table. *)
Theorem c19_table op (x y : V) k1 k2 : in_table op = true -> has_kind x k1 -> has_kind y k2 ->
  match op_kind op k1 k2 with
  | Some k => exists vs, op_meaning op x y = Ok vs /\ List.length vs = op_width op /\ Forall (fun v => has_kind v k) vs
  | None => exists e, op_meaning op x y = Err e
  end.
Proof. apply kinds_table. Qed.

(** Powers: a scalar to a scalar always; a matrix to an integer if it is
    square or the exponent is not positive; anything else is an error. *)
Theorem c19_power_scalar (a b : T) : exists c, @pow N (Scalar a) (Scalar b) = Ok (Scalar c).
Proof. eexists; reflexivity. Qed.
Theorem c19_power_matrix (m : list (list T)) (b : T) r c : has_kind (Matrix m) (KM r c) ->
  (neqb (nround b) b = true /\ (r = c \/ (nto_i32 b <= 0)%Z) ->
     exists v, pow (Matrix m) (Scalar b) = Ok v /\ has_kind v (KM r c)) /\
  (neqb (nround b) b = false \/ (r <> c /\ (0 < nto_i32 b)%Z) -> exists e, pow (Matrix m) (Scalar b) = Err e).
Proof.
  intros (Hr & Hc & Hm). pose proof (pow_table m b r c Hr Hc Hm) as H. split.
  - intros (E & G). rewrite E in H. cbn [andb] in H.
    replace (Nat.eqb r c || Z.leb (nto_i32 b) 0)%bool with true in H; [exact H|].
    symmetry. apply orb_true_iff. destruct G as [->|G]; [left; apply Nat.eqb_refl|right; now apply Z.leb_le].
  - intros G. replace (neqb (nround b) b && (Nat.eqb r c || Z.leb (nto_i32 b) 0))%bool with false in H; [exact H|].
    symmetry. destruct G as [->|(G1 & G2)]; [reflexivity|]. apply andb_false_iff. right. apply orb_false_iff.
    split; [now apply Nat.eqb_neq|now apply Z.leb_gt].
Qed.
Theorem c19_power_other (x y : V) k1 k2 : has_kind x k1 -> has_kind y k2 ->
  (k2 <> KS \/ exists n, k1 = KV n) -> exists e, pow x y = Err e.
Proof.
  intros Hx Hy H. destruct x as [m|l|s], y as [m'|l'|s'], k1, k2; cbn in Hx, Hy; try easy; try (eexists; reflexivity);
    destruct H as [H|(n' & H)]; congruence.
Qed.
(** Indexing (which numbers are valid indices for [f64]: C27). *)
Theorem c19_index (v : list T) (i : T) : v <> [] ->
  (nrem1_zero i = true /\ nsign_neg i = false /\ (nto_usize i < Z.of_nat (List.length v))%Z ->
     forall x, nth_error v (Z.to_nat (nto_usize i)) = Some x -> @get N (Vector v) (Scalar i) = Ok (Scalar x)) /\
  (~ (nrem1_zero i = true /\ nsign_neg i = false /\ (nto_usize i < Z.of_nat (List.length v))%Z) ->
     exists e, @get N (Vector v) (Scalar i) = Err e).
Proof. apply get_table. Qed.
Theorem c19_index_other (x y : V) k1 k2 : has_kind x k1 -> has_kind y k2 ->
  (k2 <> KS \/ forall n, k1 <> KV n) -> exists e, get x y = Err e.
Proof.
  intros Hx Hy H. destruct x as [m|l|s], y as [m'|l'|s'], k1, k2; cbn in Hx, Hy; try easy; try (eexists; reflexivity);
    destruct H as [H|H]; try congruence; exfalso; eapply H; reflexivity.
Qed.
(** The inverse: an error unless the matrix is square; if it succeeds, it has
    the dimensions of the matrix; never a panic. *)
Theorem c19_inverse (x : V) k : has_kind x k ->
  (forall n, k <> KM n n) /\ (exists e, inv x = Err e) \/
  (exists n, k = KM n n) /\ ((exists e, inv x = Err e) \/ exists v, inv x = Ok v /\ has_kind v k).
Proof.
  intros Hx. destruct x as [m|l|s], k; cbn in Hx; try easy; try (left; split; [intros; discriminate|eexists; reflexivity]).
  destruct Hx as (Hr & Hc & Hm). destruct (inv_table m r c Hr Hc Hm) as [H1 H2]. destruct (Nat.eq_dec r c) as [->|Hn].
  - right. split; [eauto|]. destruct H2 as [H2|(_ & H2)]; auto.
  - left. split; [intros n [= -> ->]; congruence|auto].
Qed.

(** C20 for all operators at once. *)
Theorem c20_well_formed op (x y : V) vs : well_formed x -> well_formed y -> op_meaning op x y = Ok vs -> Forall well_formed vs.
Proof. intros Hx Hy H. pose proof (op_safe op x y Hx Hy) as G. now rewrite H in G. Qed.
Theorem c20_never_panics op (x y : V) : well_formed x -> well_formed y -> op_meaning op x y <> Panic.
Proof. intros Hx Hy H. pose proof (op_safe op x y Hx Hy) as G. now rewrite H in G. Qed.
(** The dimensions of the products, spelled out. *)
Theorem c20_matrix_product (a b : list (list T)) n k m : has_kind (Matrix a) (KM n k) -> has_kind (Matrix b) (KM k m) ->
  exists p, mult (Matrix a) (Matrix b) = Ok (Matrix p) /\ shape p n m.
Proof.
  intros Ha Hb. pose proof (mult_meets _ _ _ _ Ha Hb) as H. cbn [op_kind] in H. rewrite Nat.eqb_refl in H.
  destruct H as [v [E Hv]]. destruct v; cbn in Hv; try easy. exists m0. tauto.
Qed.

(** C48 *)
Theorem c48_no_panic (b : AST N) (c : Ctx N) r : regular b -> no_equation b -> good_context c -> outcome b c r ->
  r <> Panic /\ forall vs, r = Ok vs -> Forall well_formed vs.
Proof.
  intros H1 H2 [C1 C2] (Hf & f0 & Ho). pose proof (eval_rec_safe f0 b c [] (conj H1 H2) (conj C1 C2)) as G.
  unfold eval in Ho. rewrite Ho in G by lia. split; [intros ->; exact G|intros vs ->; exact G].
Qed.
Theorem c48_no_panic_parsed s (b : AST N) (c : Ctx N) r : parse s = Ok b -> no_equation b -> good_context c -> outcome b c r ->
  r <> Panic /\ forall vs, r = Ok vs -> Forall well_formed vs.
Proof.
  intros Hp. apply c48_no_panic. intros x Hx. destruct x; auto.
  - eapply c06_vectors_non_empty; eauto.
  - eapply c06_matrices_rectangular; eauto.
Qed.
End Props.

(** ** Concrete cases *)
Module Examples.
#[local] Existing Instance NT.
#[local] Existing Instance ET.
Open Scope Z_scope.

Example c19_hypotheses : has_kind (ma [[1; 2]; [3; 4]; [5; 6]]) (KM 3 2) /\ has_kind (ma [[1; 2; 3]; [4; 5; 6]]) (KM 2 3) /\
  op_kind OMult (KM 3 2) (KM 2 3) = Some (KM 3 3) /\ op_kind OAdd (KM 3 2) (KM 2 3) = None.
Proof. repeat split; cbn; auto; lia. Qed.
Example c19_product : mult (ma [[1; 2]; [3; 4]; [5; 6]]) (ma [[1; 2; 3]; [4; 5; 6]]) = Ok (ma [[9; 12; 15]; [19; 26; 33]; [29; 40; 51]]).
Proof. apply val_ok_eq. vm_compute. reflexivity. Qed.
(** An ill-formed value does make [add] panic. *)
Example c19_ill_formed : add (ma [[1; 2]; [3]]) (ma [[1; 2]; [3; 4]]) = Panic.
Proof. apply is_panic_eq. vm_compute. reflexivity. Qed.
Example c48_ill_formed_panics : get (ve []) (sc 0) = Panic.
Proof. apply is_panic_eq. vm_compute. reflexivity. Qed.
(** D([x,2*x],x,3)?1 *)
Definition t : AST NT := AOp OGet (ADer (AVector [AVar (lit "x"); AOp OMult (AScalar (num 2)) (AVar (lit "x"))]) (lit "x") (AScalar (num 3))) (AScalar (num 1)).
Definition c : Ctx NT := mkCtx [mkVar (lit "m") [ma [[1; 2]; [3; 4]]; sc 1]] [mkFun (lit "f") (AVector [AVar (lit "x")]) [lit "x"]].
Example c48_hypotheses : regular t /\ no_equation t /\ good_context c.
Proof.
  assert (R : gentle t).
  { repeat (apply gentle_build; [cbn; try exact I; try discriminate|cbn; let b := fresh in intros b Hb; repeat destruct Hb as [<-|Hb]; try contradiction]). }
  split; [apply R|]. split; [apply R|]. split.
  - intros v x [<-|[]] [<-|[<-|[]]]; [exists (KM 2 2)|exists KS]; cbn; repeat constructor.
  - intros f [<-|[]].
    assert (R' : gentle (AVector [AVar (lit "x")] : AST NT)).
    { repeat (apply gentle_build; [cbn; try exact I; try discriminate|cbn; let b := fresh in intros b Hb; repeat destruct Hb as [<-|Hb]; try contradiction]). }
    exact R'.
Qed.
End Examples.
