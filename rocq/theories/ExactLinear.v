(** * ExactLinear: what the matrix functions compute in exact arithmetic. *)
From Coq Require Import ZArith Lia List.
Set Warnings "-notation-overridden,-ambiguous-paths".
From mathcomp Require Import all_ssreflect all_algebra.
From Verif Require Import Base BaseFacts Num Types Maths GrammarSpec MathsForms Exact ExactSpec.
Import GRing.Theory Order.Theory mathcomp.algebra.ssrnum.Num.Theory.
Set Implicit Arguments.
Unset Strict Implicit.
Unset Printing Implicit Defensive.
Local Open Scope ring_scope.

Notation nltP := ssrnat.ltP.
Lemma seq_iota s n : List.seq s n = iota s n.
Proof. by elim: n s => //= n IH s; rewrite IH. Qed.
Lemma Map_map A B (f : A -> B) l : List.map f l = map f l.
Proof. by elim: l => //= x l ->. Qed.
Lemma tab_mkseq A n (f : nat -> A) : tab n f = mkseq f n.
Proof. by rewrite /mkseq -Map_map -seq_iota. Qed.
Lemma enum_tab A n (f : nat -> A) : [seq f (val i) | i <- enum 'I_n] = tab n f.
Proof. by rewrite tab_mkseq /mkseq -(val_enum_ord n) -[in RHS]map_comp. Qed.

Section Fin.
Variables (F : archiFieldType) (L : lib F).
Notation NX := (Exact L).
Notation V := (Value NX).

Lemma n0E : @n0 NX = Fin 0. Proof. by []. Qed.
Lemma n1E : @n1 NX = Fin 1. Proof. by []. Qed.
Lemma nm1E : @nm1 NX = Fin (-1). Proof. by []. Qed.

Lemma fold_fin (f : nat -> F) l (s : F) :
  List.fold_left (fun s k => @nadd NX s (Fin (f k))) l (Fin s) = Fin (s + \sum_(k <- l) f k).
Proof.
  elim: l s => [|x l IH] s /=; first by rewrite big_nil addr0.
  by rewrite IH big_cons addrA.
Qed.
Lemma nsum_fin n (f : nat -> F) : @nsum NX n (fun k => Fin (f k)) = Fin (\sum_(k < n) f k).
Proof. by rewrite /nsum n0E fold_fin add0r seq_iota -(big_mkord xpredT) /index_iota subn0. Qed.
Lemma nsum_fin_ext n (f : nat -> F) g : (forall k, (k < n)%N -> g k = Fin (f k)) -> @nsum NX n g = Fin (\sum_(k < n) f k).
Proof. by move=> H; rewrite -nsum_fin; apply: nsum_ext => k /nltP; apply: H. Qed.

(** Entries as functions of natural numbers. *)
Definition fn r c (A : 'M[F]_(r, c)) (i j : nat) : F :=
  match insub i, insub j with Some i, Some j => A i j | _, _ => 0 end.
Lemma fn_ord r c (A : 'M[F]_(r, c)) (i : 'I_r) (j : 'I_c) : fn A i j = A i j.
Proof. by rewrite /fn !valK. Qed.
Lemma fn_mk r c (a : nat -> nat -> F) i j : (i < r)%N -> (j < c)%N -> fn (\matrix_(i < r, j < c) a i j) i j = a i j.
Proof. by move=> Hi Hj; rewrite /fn !insubT mxE. Qed.
Lemma mx_fn r c (A : 'M[F]_(r, c)) : A = \matrix_(i, j) fn A i j.
Proof. by apply/matrixP => i j; rewrite mxE fn_ord. Qed.

Definition fins r c (a : nat -> nat -> F) : list (list (@T NX)) := tab2 r c (fun i j => Fin (a i j)).
Lemma mat_mk r c (a : nat -> nat -> F) : mat L (\matrix_(i < r, j < c) a i j) = Matrix (fins r c a).
Proof.
  rewrite /mat /fins /tab2; congr Matrix. rewrite -enum_tab; apply: eq_map => i.
  by rewrite -enum_tab; apply: eq_map => j; rewrite mxE.
Qed.
Lemma mat_fins r c (A : 'M[F]_(r, c)) : mat L A = Matrix (fins r c (fn A)).
Proof. by rewrite {1}(mx_fn A) mat_mk. Qed.
Lemma fins_shape r c a : shape (fins r c a) r c. Proof. exact: tab2_shape. Qed.
Lemma fins_ent r c a i j : (i < r)%N -> (j < c)%N -> ent (fins r c a) i j = Fin (a i j).
Proof. by move=> /nltP Hi /nltP Hj; rewrite /fins ent_tab2. Qed.
Lemma fins_ext r c a b : (forall i j, (i < r)%N -> (j < c)%N -> a i j = b i j) -> fins r c a = fins r c b.
Proof. by move=> H; apply: tab2_ext => i j /nltP Hi /nltP Hj; rewrite H. Qed.
Lemma tab2_fins r c f a : (forall i j, (i < r)%N -> (j < c)%N -> f i j = Fin (a i j)) -> @tab2 (@T NX) r c f = fins r c a.
Proof. by move=> H; apply: tab2_ext => i j /nltP Hi /nltP Hj; rewrite H. Qed.

Definition vfins n (v : nat -> F) : list (@T NX) := tab n (fun i => Fin (v i)).
Lemma vfins_com n v i : (i < n)%N -> com (vfins n v) i = Fin (v i).
Proof. by move=> /nltP H; rewrite /com /vfins tab_nth. Qed.
Lemma vfins_length n v : List.length (vfins n v) = n. Proof. exact: tab_length. Qed.
Lemma vec_vfins n (v : 'cV[F]_n) : vec L v = Vector (vfins n (fun i => fn v i 0%N)).
Proof.
  rewrite /vec /vfins -enum_tab; congr Vector; apply: eq_map => i. by rewrite -[0%N]/(val (0 : 'I_1)) fn_ord.
Qed.
Lemma vec_mk n (v : nat -> F) : vec L (\col_(i < n) v i) = Vector (vfins n v).
Proof. by rewrite /vec /vfins -enum_tab; congr Vector; apply: eq_map => i; rewrite mxE. Qed.

(** ** Products *)
Lemma mult_mm r c c' (A : 'M[F]_(r, c)) (B : 'M[F]_(c, c')) : (0 < r)%N -> (0 < c)%N ->
  mult (mat L A) (mat L B) = Ok (mat L (A *m B)).
Proof.
  move=> /nltP Hr /nltP Hc. rewrite !mat_fins /=. rewrite (mmmult_form _ _ r c c' Hr Hc (fins_shape _ _ _) (fins_shape _ _ _)).
  congr (Ok (Matrix _)). apply: tab2_fins => i j Hi Hj.
  rewrite (@nsum_fin_ext _ (fun k => fn A i k * fn B k j)).
  - congr Fin. rewrite -[i]/(val (Ordinal Hi)) -[j]/(val (Ordinal Hj)) fn_ord mxE. by apply: eq_bigr => k _; rewrite !fn_ord.
  - by move=> k Hk; rewrite !fins_ent.
Qed.
Lemma mult_mv r c (A : 'M[F]_(r, c)) (v : 'cV[F]_c) : (0 < r)%N -> mult (mat L A) (vec L v) = Ok (vec L (A *m v)).
Proof.
  move=> /nltP Hr. rewrite mat_fins !vec_vfins /=. rewrite (mvmult_form _ _ r c Hr (fins_shape _ _ _) (vfins_length _ _)).
  congr (Ok (Vector _)). rewrite /vfins. apply: tab_ext => i /nltP Hi.
  rewrite (@nsum_fin_ext _ (fun k => fn A i k * fn v k 0%N)).
  - congr Fin. rewrite -[i]/(val (Ordinal Hi)) -[0%N]/(val (0 : 'I_1)) fn_ord mxE. by apply: eq_bigr => k _; rewrite !fn_ord.
  - by move=> k Hk; rewrite fins_ent // vfins_com.
Qed.
Lemma mult_vv n (u v : 'cV[F]_n) : mult (vec L u) (vec L v) = Ok (sca L (\sum_i u i 0 * v i 0)).
Proof.
  rewrite !vec_vfins /=. rewrite vvmult_form ?vfins_length //.
  congr (Ok (Scalar _)). rewrite (@nsum_fin_ext _ (fun k => fn u k 0%N * fn v k 0%N)).
  - congr Fin. apply: eq_bigr => k _. by rewrite -[0%N]/(val (0 : 'I_1)) !fn_ord.
  - by move=> k Hk; rewrite !vfins_com.
Qed.
Lemma mult_sm r c (x : F) (A : 'M[F]_(r, c)) : (0 < r)%N -> mult (sca L x) (mat L A) = Ok (mat L (x *: A)).
Proof.
  move=> /nltP Hr. rewrite !mat_fins /=. rewrite (smmult_form _ _ r c Hr (fins_shape _ _ _)).
  congr (Ok (Matrix _)). apply: tab2_fins => i j Hi Hj. rewrite fins_ent //. congr Fin.
  by rewrite -[i]/(val (Ordinal Hi)) -[j]/(val (Ordinal Hj)) !fn_ord mxE mulrC.
Qed.
Lemma mult_sv n (x : F) (v : 'cV[F]_n) : mult (sca L x) (vec L v) = Ok (vec L (x *: v)).
Proof.
  rewrite !vec_vfins /=. rewrite svmult_form vfins_length.
  congr (Ok (Vector _)). apply: tab_ext => i /nltP Hi. rewrite vfins_com //. congr Fin.
  by rewrite -[i]/(val (Ordinal Hi)) -[0%N]/(val (0 : 'I_1)) !fn_ord mxE mulrC.
Qed.
Lemma mult_ms r c (x : F) (A : 'M[F]_(r, c)) : (0 < r)%N -> mult (mat L A) (sca L x) = Ok (mat L (x *: A)).
Proof. exact: mult_sm. Qed.
Lemma mult_vs n (x : F) (v : 'cV[F]_n) : mult (vec L v) (sca L x) = Ok (vec L (x *: v)).
Proof. exact: mult_sv. Qed.
Lemma div_fin (x y : F) : y != 0 -> @ndiv NX (Fin x) (Fin y) = Fin (x / y).
Proof. by rewrite /= => /negbTE ->. Qed.
Lemma div_ms r c (x : F) (A : 'M[F]_(r, c)) : (0 < r)%N -> x != 0 -> div (mat L A) (sca L x) = Ok (mat L (x^-1 *: A)).
Proof.
  move=> Hr Hx. rewrite -(mult_sm _ _ Hr) /div /mult /mat /sca /msdiv n1E div_fin // mul1r //.
Qed.
Lemma div_vs n (x : F) (v : 'cV[F]_n) : x != 0 -> div (vec L v) (sca L x) = Ok (vec L (x^-1 *: v)).
Proof.
  move=> Hx. rewrite -mult_sv /div /mult /vec /sca /vsdiv n1E div_fin // mul1r //.
Qed.
Lemma add_mm r c (A B : 'M[F]_(r, c)) : (0 < r)%N -> add (mat L A) (mat L B) = Ok (mat L (A + B)).
Proof.
  move=> /nltP Hr. rewrite !mat_fins /=. rewrite (madd_form _ _ r c Hr (fins_shape _ _ _) (fins_shape _ _ _)).
  congr (Ok (Matrix _)). apply: tab2_fins => i j Hi Hj. rewrite !fins_ent //. congr Fin.
  by rewrite -[i]/(val (Ordinal Hi)) -[j]/(val (Ordinal Hj)) !fn_ord mxE.
Qed.
Lemma sub_mm r c (A B : 'M[F]_(r, c)) : (0 < r)%N -> sub (mat L A) (mat L B) = Ok (mat L (A - B)).
Proof.
  move=> /nltP Hr. rewrite !mat_fins /=. rewrite (msub_form _ _ r c Hr (fins_shape _ _ _) (fins_shape _ _ _)).
  congr (Ok (Matrix _)). apply: tab2_fins => i j Hi Hj. rewrite !fins_ent //. congr Fin.
  by rewrite -[i]/(val (Ordinal Hi)) -[j]/(val (Ordinal Hj)) !fn_ord !mxE mulrN1.
Qed.
Lemma add_vv n (u v : 'cV[F]_n) : add (vec L u) (vec L v) = Ok (vec L (u + v)).
Proof.
  rewrite !vec_vfins /=. rewrite vadd_form ?vfins_length //.
  congr (Ok (Vector _)). apply: tab_ext => i /nltP Hi. rewrite !vfins_com //. congr Fin.
  by rewrite -[i]/(val (Ordinal Hi)) -[0%N]/(val (0 : 'I_1)) !fn_ord mxE.
Qed.
Lemma sub_vv n (u v : 'cV[F]_n) : sub (vec L u) (vec L v) = Ok (vec L (u - v)).
Proof.
  rewrite !vec_vfins /=. rewrite vsub_form ?vfins_length //.
  congr (Ok (Vector _)). apply: tab_ext => i /nltP Hi. rewrite !vfins_com //. congr Fin.
  by rewrite -[i]/(val (Ordinal Hi)) -[0%N]/(val (0 : 'I_1)) !fn_ord !mxE mulrN1.
Qed.

(** ** Determinants *)
Lemma powi_pos_fin (x r : F) p : @powi_pos NX (Fin x) p (Fin r) = Fin (r * x ^+ Pos.to_nat p).
Proof.
  elim: p x r => [p IH|p IH|] x r /=.
  - by rewrite IH Pos2Nat.inj_xI multE -mulrA exprS exprM expr2.
  - by rewrite IH Pos2Nat.inj_xO multE exprM expr2.
  - by rewrite expr1.
Qed.
Lemma npowi_fin (x : F) k : @npowi NX (Fin x) (Z.of_nat k) = Fin (x ^+ k).
Proof.
  case: k => [|k]; first by [].
  by rewrite /npowi /Z.of_nat n1E powi_pos_fin mul1r SuccNat2Pos.id_succ.
Qed.
Lemma npowi_fin_neg (x : F) k : x != 0 -> @npowi NX (Fin x) (Z.opp (Z.of_nat k)) = Fin (x ^- k).
Proof.
  move=> Hx. case: k => [|k]; first by rewrite /npowi -[LHS]/(@n1 NX) n1E invr1.
  rewrite /npowi /Z.of_nat /Z.opp n1E powi_pos_fin mul1r SuccNat2Pos.id_succ div_fin ?expf_neq0 //. by rewrite mul1r.
Qed.

Lemma skip_bump k j : skip k j = bump k j.
Proof.
  rewrite /skip /bump leqNgt. case: Nat.ltb_spec => H; first by rewrite (introT ssrnat.ltP H).
  by case: ssrnat.ltP => // H'; case: (Nat.lt_irrefl j); exact: (Nat.lt_le_trans _ _ _ H' H).
Qed.

Lemma det2 (a : nat -> nat -> F) : \det (\matrix_(i < 2, j < 2) a i j) = a 0%N 0%N * a 1%N 1%N - a 0%N 1%N * a 1%N 0%N.
Proof.
  rewrite (expand_det_row _ 0) !big_ord_recl big_ord0 addr0 /cofactor !det_mx11 !mxE /=.
  by rewrite expr0 mul1r expr1 mulN1r mulrN.
Qed.
Lemma laplace_fin n : forall a : nat -> nat -> F, (0 < n)%N ->
  @laplace NX n (fun i j => Fin (a i j)) = Fin (\det (\matrix_(i < n, j < n) a i j)).
Proof.
  elim: n => // n IH a _.
  case: n IH => [|[|n]] IH.
  - by rewrite /= det_mx11 mxE.
  - by rewrite det2.
  - have -> : @laplace NX n.+3 (fun i j => Fin (a i j)) = @nsum NX n.+3 (fun k =>
        nmul (nmul (npowi (@nm1 NX) (Z.of_nat k)) (Fin (a 0%N k))) (@laplace NX n.+2 (fun i j => Fin (a i.+1 (skip k j))))) by [].
    rewrite (@nsum_fin_ext _ (fun k => (-1) ^+ k * a 0%N k * \det (\matrix_(i < n.+2, j < n.+2) a i.+1 (bump k j)))).
    + congr Fin. rewrite (expand_det_row _ 0). apply: eq_bigr => k _. rewrite mxE /cofactor add0n.
      rewrite mulrCA mulrA. congr (_ * \det _). apply/matrixP => i j. by rewrite !mxE.
    + move=> k Hk. rewrite nm1E npowi_fin.
      rewrite (@laplace_ext NX n.+2 _ (fun i j => Fin (a i.+1 (bump k j)))); last by move=> i j _ _; rewrite skip_bump.
      by rewrite (IH (fun i j => a i.+1 (bump k j))).
Qed.
Lemma det_mat n (A : 'M[F]_n) : (0 < n)%N -> det (mat L A) = Ok (sca L (\det A)).
Proof.
  move=> Hn. rewrite mat_fins /= (det_form _ n (elimT nltP Hn) (fins_shape _ _ _)) /sca. congr (Ok (Scalar _)).
  rewrite (@laplace_ext NX n _ (fun i j => Fin (fn A i j))).
  - by rewrite laplace_fin // -mx_fn.
  - move=> i j /nltP Hi /nltP Hj. by rewrite fins_ent.
Qed.
End Fin.
