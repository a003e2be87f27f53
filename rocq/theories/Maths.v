(** * Maths: operations on values (/repo/src/maths.rs and
    /repo/src/maths/{add_sub,mult_div,cross_pow,special}.rs).

    Every function returns [res string Value]: [Err s] is Rust's
    [Err(String)], [Panic] an out-of-bounds index. *)
From Coq Require Import List NArith ZArith Bool Ascii String.
From Verif Require Import Base Num Types.
Import ListNotations.
Local Open Scope string_scope.
Local Open Scope list_scope.

Section Maths.
Context {N : Num}.
Let V := Value N.
Let R := res string V.

(** [m\[i\]\[j\]] *)
Definition idx2 {E A} (m : list (list A)) (i j : nat) : res E A :=
  do r <- idx m i; idx r j.

(** [m\[0\].len()] *)
Definition row0_len {E A} (m : list (list A)) : res E nat :=
  do r <- idx m 0; Ok (List.length r).

(** add_sub.rs:4-6 [sadd] *)
Definition sadd (a b : T) : R := Ok (Scalar (nadd a b)).

(** add_sub.rs:9-18 [vadd] *)
Definition vadd (a b : list T) : R :=
  if negb (Nat.eqb (List.length a) (List.length b)) then Err "Vectors have different dimensions!"
  else do o <- mapM (fun i => do x <- idx a i; do y <- idx b i; Ok (nadd x y)) (seq 0 (List.length a));
       Ok (Vector o).

(** add_sub.rs:21-34 [madd].  [||] evaluates [a\[0\]] only if the row counts
    agree. *)
Definition madd (a b : list (list T)) : R :=
  if negb (Nat.eqb (List.length a) (List.length b)) then Err "Matrices have different dimensions!"
  else
    do ca <- row0_len a; do cb <- row0_len b;
    if negb (Nat.eqb ca cb) then Err "Matrices have different dimensions!"
    else
      do o <- mapM (fun i =>
                mapM (fun j => do x <- idx2 a i j; do y <- idx2 b i j; Ok (nadd x y)) (seq 0 ca))
              (seq 0 (List.length a));
      Ok (Matrix o).

(** add_sub.rs:37-43 [vsub] *)
Definition vsub (a b : list T) : R := vadd a (map (fun x => nmul x nm1) b).

(** add_sub.rs:46-56 [msub]: every row is read up to the length of row 0. *)
Definition msub (a b : list (list T)) : R :=
  do bn <- mapM (fun i =>
             do cb <- row0_len b;
             mapM (fun j => do x <- idx2 b i j; Ok (nmul x nm1)) (seq 0 cb))
           (seq 0 (List.length b));
  madd a bn.

(** mult_div.rs:4-6 [ssmult] *)
Definition ssmult (a b : T) : R := Ok (Scalar (nmul a b)).
(** mult_div.rs:9-15 [svmult] *)
Definition svmult (a : T) (b : list T) : R := Ok (Vector (map (fun i => nmul i a) b)).
(** mult_div.rs:18-28 [smmult] *)
Definition smmult (a : T) (b : list (list T)) : R :=
  do o <- mapM (fun i =>
            do cb <- row0_len b;
            mapM (fun j => do x <- idx2 b i j; Ok (nmul x a)) (seq 0 cb))
          (seq 0 (List.length b));
  Ok (Matrix o).
(** mult_div.rs:31-40 [vvmult] *)
Definition vvmult (a b : list T) : R :=
  if negb (Nat.eqb (List.length a) (List.length b)) then Err "Vectors have different dimensions!"
  else do s <- foldM (fun s i => do x <- idx a i; do y <- idx b i; Ok (nadd s (nmul x y)))
                 (seq 0 (List.length a)) n0;
       Ok (Scalar s).
(** mult_div.rs:43-56 [mvmult] *)
Definition mvmult (a : list (list T)) (b : list T) : R :=
  do ca <- row0_len a;
  if negb (Nat.eqb ca (List.length b)) then Err "Vector and matrix have incompatible dimensions!"
  else do o <- mapM (fun i =>
                do r <- idx a i;
                foldM (fun s j => do x <- idx r j; do y <- idx b j; Ok (nadd s (nmul x y)))
                      (seq 0 (List.length r)) n0)
              (seq 0 (List.length a));
       Ok (Vector o).
(** mult_div.rs:59-76 [mmmult] *)
Definition mmmult (a b : list (list T)) : R :=
  do ca <- row0_len a;
  if negb (Nat.eqb ca (List.length b)) then Err "Matrices have incompatible dimensions!"
  else do o <- mapM (fun i =>
                do cb <- row0_len b;
                mapM (fun j =>
                  foldM (fun s k => do x <- idx2 a i k; do y <- idx2 b k j; Ok (nadd s (nmul x y)))
                        (seq 0 ca) n0)
                  (seq 0 cb))
              (seq 0 (List.length a));
       Ok (Matrix o).
(** mult_div.rs:79-81 [ssdiv] *)
Definition ssdiv (a b : T) : R := Ok (Scalar (ndiv a b)).
(** mult_div.rs:84-86 [vsdiv] *)
Definition vsdiv (a : list T) (b : T) : R := svmult (ndiv n1 b) a.
(** mult_div.rs:89-99 [vvdiv] *)
Definition vvdiv (a b : list T) : R :=
  if negb (Nat.eqb (List.length a) (List.length b)) then Err "Vectors have incompatible dimensions!"
  else do s <- foldM (fun s i => do x <- idx a i; do y <- idx b i; Ok (nadd s (ndiv x y)))
                 (seq 0 (List.length a)) n0;
       Ok (Scalar s).
(** mult_div.rs:102-104 [msdiv] *)
Definition msdiv (a : list (list T)) (b : T) : R := smmult (ndiv n1 b) a.

(** cross_pow.rs:6-32 [vcross].  The loop fills both expanded vectors from
    [i < a.len()]; the lengths are equal there. *)
Definition vcross (a b : list T) : R :=
  if negb (Nat.eqb (List.length a) (List.length b)) then Err "Vectors have different dimensions!"
  else if Nat.ltb 3 (List.length a) then Err "Can't compute cross product with dim(V) > 3!"
  else
    let ea i := nth i a n0 in
    let eb i := nth i b n0 in
    Ok (Vector [ nsub (nmul (ea 1) (eb 2)) (nmul (ea 2) (eb 1));
                 nsub (nmul (ea 2) (eb 0)) (nmul (ea 0) (eb 2));
                 nsub (nmul (ea 0) (eb 1)) (nmul (ea 1) (eb 0)) ]).

(** cross_pow.rs:35-37 [sspow] *)
Definition sspow (a b : T) : R := Ok (Scalar (npowf a b)).

(** [for _ in 0..n { x = f(x)? }] *)
Definition iterM {E A} (n : Z) (f : A -> res E A) (x : A) : res E A :=
  match n with
  | Zpos p => Pos.iter (fun r => bind r f) (Ok x) p
  | _ => Ok x
  end.

(** cross_pow.rs:40-61 [mspow] *)
Definition mspow (a : list (list T)) (b : T) : R :=
  if negb (neqb (nround b) b) then Err "Exponent must be an integer!"
  else
    do m0 <- mapM (fun i =>
               do ca <- row0_len a;
               Ok (map (fun j => if Nat.eqb i j then n1 else n0) (seq 0 ca)))
             (seq 0 (List.length a));
    do m <- iterM (nto_i32 b)
              (fun m => do p <- mmmult m a; unwrap (get_matrix p)) m0;
    Ok (Matrix m).

(** The matrix without row 0 and column [i] (special.rs:13).  Slicing
    [r\[0..i\]] and [r\[i+1..\]] panics on rows shorter than [i+1]; rows all have
    the length of row 0 when this is reached. *)
Definition drop_col {A} (i : nat) (r : list A) : list A := firstn i r ++ skipn (S i) r.
Definition minor {A} (i : nat) (m : list (list A)) : list (list A) :=
  map (drop_col i) (tl m).

(** special.rs:4-19 [det_m].  Recursion on the number of rows (fuel); the
    outer call supplies enough fuel, see [det_m]. *)
Fixpoint det_fuel (fuel : nat) (a : list (list T)) : R :=
  match fuel with
  | O => Fuel
  | S fuel =>
      do c <- row0_len a;
      if (negb (forallb (fun r => Nat.eqb (List.length r) c) a) || negb (Nat.eqb (List.length a) c))%bool
      then Err "Can't calculate determinant of a non-square matrix!"
      else if Nat.eqb (List.length a) 1 then do x <- idx2 a 0 0; Ok (Scalar x)
      else if Nat.eqb (List.length a) 2 then
        do a00 <- idx2 a 0 0; do a11 <- idx2 a 1 1;
        do a01 <- idx2 a 0 1; do a10 <- idx2 a 1 0;
        Ok (Scalar (nsub (nmul a00 a11) (nmul a01 a10)))
      else
        do s <- foldM (fun s i =>
                  do x <- idx2 a 0 i;
                  do d <- det_fuel fuel (minor i a);
                  do dv <- unwrap (get_scalar d);
                  Ok (nadd s (nmul (nmul (npowi nm1 (Z.of_nat i)) x) dv)))
                (seq 0 c) n0;
        Ok (Scalar s)
  end.
Definition det_m (a : list (list T)) : R := det_fuel (S (List.length a)) a.

(** Replacement of one row: [v\[j\] = r]. *)
Fixpoint set_nth {A} (l : list A) (j : nat) (x : A) : list A :=
  match l, j with
  | [], _ => []
  | _ :: t, O => x :: t
  | y :: t, S j => y :: set_nth t j x
  end.

(** The inner loop shared by special.rs:41-52, 66-77 and roots.rs:46-58,
    73-85: row [j] minus the multiple of row [i] that cancels column [i], and
    whether every entry from column [i] on is now [== 0.]. *)
Definition elim_row {E} (i : nat) (vi vj : list T) : res E (list T * bool) :=
  do p <- idx vi i; do q <- idx vj i;
  let divisor := ndiv p q in
  do tail <- mapM (fun k => do x <- idx vj k; do y <- idx vi k; Ok (nsub x (ndiv y divisor)))
               (seq i (List.length vj - i));
  Ok (firstn i vj ++ tail, forallb (fun x => neqb x n0) tail).

(** special.rs:40-54, 65-79, roots.rs:45-59, 72-86: forward elimination
    without pivoting.  [zl] is the error returned on a zero line. *)
Definition eliminate {E} (zl : E) (v : list (list T)) : res E (list (list T)) :=
  let n := List.length v in
  foldM (fun v i =>
    foldM (fun v j =>
      do vi <- idx v i; do vj <- idx v j;
      do rz <- elim_row i vi vj;
      if snd rz then Err zl else Ok (set_nth v j (fst rz)))
      (seq (S i) (n - S i)) v)
    (seq 0 (n - 1)) v.

(** [v.reverse(); v.iter_mut().for_each(|x| x.reverse())] then each row
    rotated left by [k] (special.rs:56-63 with [k = n], roots.rs:61-70 with
    [k = 1]). *)
Definition rotate {A} (k : nat) (l : list A) : list A := skipn k l ++ firstn k l.
Definition flip {A} (k : nat) (v : list (list A)) : list (list A) :=
  map (fun r => rotate k (rev r)) (rev v).

(** special.rs:22-98 [inv_m] *)
Definition inv_m (a : list (list T)) : R :=
  match det_m a with
  | Err _ => Err "Can't calculate inverse of a non-square matrix!"
  | Panic => Panic
  | Fuel => Fuel
  | Ok d =>
      if match d with Scalar s => neqb s n0 | _ => false end
      then Err "Can't calculate inverse of a matrix with determinant 0!"
      else
        let n := List.length a in
        let v := map (fun ir => snd ir ++ map (fun j => if Nat.eqb j (fst ir) then n1 else n0) (seq 0 n))
                     (combine (seq 0 n) a) in
        do v <- eliminate "Infinite solutions" v;
        let v := flip n v in
        do v <- eliminate "Infinite solutions" v;
        do rows <- mapM (fun i =>
                     do r <- idx v i; do p <- idx r i;
                     let mult := ndiv n1 p in
                     do out <- mapM (fun j => do x <- idx r j; Ok (nmul x mult))
                                 (seq (List.length r - n) n);
                     Ok (rev out))
                   (seq 0 (List.length v));
        Ok (Matrix (rev rows))
  end.

(** maths.rs:10-22 [add] *)
Definition add (lv rv : V) : R :=
  match lv, rv with
  | Scalar a, Scalar b => sadd a b
  | Vector a, Vector b => vadd a b
  | Matrix a, Matrix b => madd a b
  | Vector _, Scalar _ => Err "Can't add scalar to vector!"
  | Scalar _, Vector _ => Err "Can't add vector to scalar!"
  | Matrix _, Scalar _ => Err "Can't add scalar to matrix!"
  | Scalar _, Matrix _ => Err "Can't add matrix to scalar!"
  | Vector _, Matrix _ => Err "Can't add matrix to vector!"
  | Matrix _, Vector _ => Err "Can't add vector to matrix!"
  end.

(** maths.rs:25-37 [sub] *)
Definition sub (lv rv : V) : R :=
  match lv, rv with
  | Scalar a, Scalar b => sadd a (nmul b nm1)
  | Vector a, Vector b => vsub a b
  | Matrix a, Matrix b => msub a b
  | Vector _, Scalar _ => Err "Can't subtract scalar from vector!"
  | Scalar _, Vector _ => Err "Can't subtract vector from scalar!"
  | Matrix _, Scalar _ => Err "Can't subtract scalar from matrix!"
  | Scalar _, Matrix _ => Err "Can't subtract matrix from scalar!"
  | Vector _, Matrix _ => Err "Can't subtract matrix from vector!"
  | Matrix _, Vector _ => Err "Can't subtract vector from matrix!"
  end.

(** maths.rs:40-52 [mult] *)
Definition mult (lv rv : V) : R :=
  match lv, rv with
  | Scalar a, Scalar b => ssmult a b
  | Vector a, Scalar b => svmult b a
  | Scalar a, Vector b => svmult a b
  | Scalar a, Matrix b => smmult a b
  | Matrix a, Scalar b => smmult b a
  | Matrix a, Matrix b => mmmult a b
  | Vector a, Vector b => vvmult a b
  | Matrix a, Vector b => mvmult a b
  | Vector _, Matrix _ => Err "Vector has to be on the right side of linear transformation!"
  end.

(** maths.rs:55-61 [neg] *)
Definition neg (lv : V) : R :=
  match lv with
  | Scalar a => Ok (Scalar (nmul nm1 a))
  | Vector a => Ok (Vector (map (fun x => nmul nm1 x) a))
  | Matrix a => Ok (Matrix (map (map (fun x => nmul nm1 x)) a))
  end.

(** maths.rs:64-76 [div] *)
Definition div (lv rv : V) : R :=
  match lv, rv with
  | Scalar a, Scalar b => ssdiv a b
  | Vector a, Scalar b => vsdiv a b
  | Matrix a, Scalar b => msdiv a b
  | Vector a, Vector b => vvdiv a b
  | Scalar _, Vector _ => Err "Can't divide scalar by vector!"
  | Scalar _, Matrix _ => Err "Can't divide scalar by matrix!"
  | Matrix _, Vector _ => Err "Can't divide matrix by vector!"
  | Vector _, Matrix _ => Err "Can't divide vector by matrix!"
  | Matrix _, Matrix _ => Err "Can't divide matrix by matrix!"
  end.

(** maths.rs:79-84 [cross] *)
Definition cross (lv rv : V) : R :=
  match lv, rv with
  | Vector a, Vector b => vcross a b
  | _, _ => Err "Cross product can only be computed between two vectors!"
  end.

(** maths.rs:87-100 [get].  [a.len() - 1] underflows on an empty vector: a
    panic in debug builds; in release builds it wraps, the comparison fails and
    [a\[..\]] panics instead. *)
Definition get (lv rv : V) : R :=
  match lv, rv with
  | Vector a, Scalar b =>
      if (negb (nrem1_zero b) || nsign_neg b)%bool then Err "Index must be a positive Integer!"
      else match a with
           | [] => Panic
           | _ =>
             if Z.gtb (nto_usize b) (Z.of_nat (List.length a) - 1) then Err "Index out of bounds for vector!"
             else do x <- idx a (Z.to_nat (nto_usize b)); Ok (Scalar x)
           end
  | _, _ => Err "Can only index vector with scalar!"
  end.

(** maths.rs:103-109 [pow] *)
Definition pow (lv rv : V) : R :=
  match lv, rv with
  | Scalar a, Scalar b => sspow a b
  | Matrix m, Scalar b => mspow m b
  | _, _ => Err "Can only raise scalar or matrix to the power of scalar!"
  end.

(** maths.rs:112-163, 184-190, 203-209: functions of one scalar. *)
Definition scalar_fn (f : T -> T) (ev em : string) (lv : V) : R :=
  match lv with
  | Scalar a => Ok (Scalar (f a))
  | Vector _ => Err ev
  | Matrix _ => Err em
  end.
Definition sin := scalar_fn nsin "Can't take sin of vector!" "Can't take sin of matrix!".
Definition cos := scalar_fn ncos "Can't take cos of vector!" "Can't take cos of matrix!".
Definition tan := scalar_fn ntan "Can't take tan of vector!" "Can't take tan of matrix!".
Definition arcsin := scalar_fn nasin "Can't take arcsin of vector!" "Can't take arcsin of matrxi!".
Definition arccos := scalar_fn nacos "Can't take arccos of vector!" "Can't take arccos of matrix!".
Definition arctan := scalar_fn natan "Can't take arctan of vector!" "Can't take arctan of matrix!".
Definition sqrt := scalar_fn nsqrt "Can't take sqrt of vector!" "Can't take sqrt of matrix!".
Definition ln := scalar_fn nln "Can't take ln of vector!" "Can't take ln of matrix!".

(** maths.rs:166-181 [abs] *)
Definition abs (lv : V) : R :=
  match lv with
  | Scalar a => if nltb a n0 then Ok (Scalar (nmul a nm1)) else Ok (Scalar a)
  | Vector a => Ok (Scalar (nsqrt (fold_left (fun s i => nadd s (npowi i 2)) a n0)))
  | Matrix _ => Err "Can't take abs of matrix!"
  end.

(** maths.rs:193-200 [root] *)
Definition root (lv rv : V) : R :=
  match lv, rv with
  | Scalar a, Scalar b => Ok (Scalar (npowf a (ndiv n1 b)))
  | _, _ => Err "Can only take root of a scalar!"
  end.

(** maths.rs:212-218 [det] *)
Definition det (lv : V) : R :=
  match lv with
  | Scalar _ => Err "Can't calculate determinant of a scalar!"
  | Vector _ => Err "Can't calculate determinant of a vector!"
  | Matrix m => det_m m
  end.

(** maths.rs:221-227 [inv] *)
Definition inv (lv : V) : R :=
  match lv with
  | Scalar _ => Err "Can't calculate inverse of a scalar!"
  | Vector _ => Err "Can't calculate inverse of a vector!"
  | Matrix m => inv_m m
  end.

End Maths.
