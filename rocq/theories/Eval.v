(** * Eval: evaluation of ASTs (/repo/src/parser.rs:390-586), calculus
    (/repo/src/maths/calculus.rs), root finding (/repo/src/roots.rs), the
    deprecated solver (/repo/src/solver.rs) and [quick_eval]
    (/repo/src/lib.rs:168-173). *)
From Coq Require Import List NArith ZArith Bool Ascii String.
From Verif Require Import Base F64 Num Types Maths Helpers Parser.
Import ListNotations.
Local Open Scope string_scope.
Local Open Scope list_scope.

Section Eval.
Context {N : Num} {En : Env}.
Let A := AST N.
Let V := Value N.
Let RV := res EvalError (list V).

(** [?] on a [Result<_, String>] in a function returning [EvalError]
    (errors.rs:141-145). *)
Definition mathe {X} (r : res string X) : res EvalError X := map_err MathError r.

(** [context.vars.iter()] searched from the front (parser.rs:442-448). *)
Definition lookup_var (c : Ctx N) (n : str) : option (MVar N) :=
  find (fun v => str_eqb (var_name v) n) (vars c).
(** parser.rs:454-460 *)
Definition lookup_fun (c : Ctx N) (n : str) : option (MFun N) :=
  find (fun f => str_eqb (fun_name f) n) (funs c).

(** The operation applied to one pair of operand values (parser.rs:505-531). *)
Definition apply_op (op : SimpleOp) (i j : V) : RV :=
  let one r := do v <- mathe r; Ok [v] in
  match op with
  | OGet => one (get i j)
  | OAdd => one (add i j)
  | OSub => one (sub i j)
  | OAddSub => do p <- mathe (add i j); do m <- mathe (sub i j); Ok [p; m]
  | OMult => one (mult i j)
  | ONeg => one (neg j)
  | ODiv => one (div i j)
  | OCross => one (cross i j)
  | OHiddenMult => one (mult i j)
  | OPow => one (pow i j)
  | OSin => one (sin i)
  | OCos => one (cos i)
  | OTan => one (tan i)
  | OAbs => one (abs i)
  | OSqrt => one (sqrt i)
  | ORoot => one (root i j)
  | OLn => one (ln i)
  | OArcsin => one (arcsin i)
  | OArccos => one (arccos i)
  | OArctan => one (arctan i)
  | ODet => one (det i)
  | OInv => one (inv i)
  | OParenths => Ok [i]
  end.

(** parser.rs:400-404, 420-424: every value of a component must be a scalar. *)
Definition scalars_or (e : EvalError) (vs : list V) : res EvalError (list T) :=
  mapM (fun v => match get_scalar v with Some s => Ok s | None => Err e end) vs.

(** parser.rs:480-490: the variables a function body sees: the parameters, then
    the caller's variables that are not shadowed.  [!f_vars.contains(..)] looks
    at all variables pushed so far, so of several caller variables with one name
    only the first is kept. *)
Definition push_unshadowed (acc : list (MVar N)) (v : MVar N) : list (MVar N) :=
  if existsb (fun w => str_eqb (var_name w) (var_name v)) acc then acc else acc ++ [v].
Definition call_vars (params : list str) (p : list V) (outer : list (MVar N)) : list (MVar N) :=
  fold_left push_unshadowed outer (map (fun nv => mkVar (fst nv) [snd nv]) (combine params p)).

Section Higher.
(** [eval] (parser.rs:393-395), passed in because calculus and root finding
    call back into it. *)
Variable ev : A -> Ctx N -> RV.

(** ** calculus.rs *)

(** calculus.rs:11-16: only the first variable of that name is removed. *)
Fixpoint remove_first (n : str) (l : list (MVar N)) : list (MVar N) :=
  match l with
  | [] => []
  | v :: t => if str_eqb (var_name v) n then t else v :: remove_first n t
  end.

(** calculus.rs:35-41: add the new samples into the running sums, index by
    index. *)
Fixpoint add_samples (sums es : list V) : RV :=
  match es, sums with
  | [], _ => Ok sums
  | e :: es', [] => do t <- add_samples [] es'; Ok (e :: t)
  | e :: es', s :: sums' =>
      do s' <- mathe (add s e); do t <- add_samples sums' es'; Ok (s' :: t)
  end.

(** calculus.rs:31-44: the [while b < ub] loop, on fuel. *)
Fixpoint integral_loop (fuel : nat) (expr : A) (x : str) (c : Ctx N) (vs : list (MVar N))
         (dx ub : T) (b : T) (sums : list V) : RV :=
  match fuel with
  | O => Fuel
  | S fuel =>
      if nltb b ub then
        let sample := ndiv (nadd b (nsub b dx)) (nof_Z 2) in
        do es <- ev expr (mkCtx (vs ++ [mkVar x [Scalar sample]]) (funs c));
        do sums <- add_samples sums es;
        integral_loop fuel expr x c vs dx ub (nadd b dx) sums
      else Ok sums
  end.

(** calculus.rs:8-53 [calculate_integral] *)
Definition calculate_integral (fuel : nat) (expr : A) (x : str) (lower upper : V) (c : Ctx N) : RV :=
  match lower, upper with
  | Scalar lb0, Scalar ub0 =>
      if neqb lb0 ub0 then Ok [Scalar n0]
      else
        let '(lb, ub) := if nltb ub0 lb0 then (ub0, lb0) else (lb0, ub0) in
        let dx := ndiv (nsub ub lb) (pow10 (PREC - 3)) in
        do sums <- integral_loop fuel expr x c (remove_first x (vars c)) dx ub lb [];
        mapM (fun s => mathe (mult s (Scalar dx))) sums
  | _, _ => Err (MathError "Only scalar bounds are allowed!")
  end.

(** [10f64.powi(-(PREC as i32))] *)
Definition eps : T := pow10 (- PREC).

(** The difference quotient as an AST (calculus.rs:75-83, 102-110). *)
Definition quotient_ast (fxh fx : V) : A :=
  AOp ODiv (AOp OSub (ast_from_value fxh) (ast_from_value fx)) (AScalar eps).

(** calculus.rs:61-91 [calculate_derivative]; the second component is the
    caller's [&mut Context] afterwards. *)
Definition calculate_derivative (expr : A) (x : str) (at_ : V) (c : Ctx N) : RV * Ctx N :=
  let c0 := remove_var c x in
  match at_ with
  | Scalar s =>
      let c1 := add_var c0 (mkVar x [at_]) in
      match ev expr c1 with
      | Ok fxs =>
          let c2 := add_var (remove_var c1 x) (mkVar x [Scalar (nadd s eps)]) in
          match ev expr c2 with
          | Ok fxhs =>
              if negb (Nat.eqb (List.length fxs) (List.length fxhs))
              then (Err (MathError "Amount of solutions for f(x) and f(x+h) are different!"), c2)
              else
                match mapM (fun p => ev (quotient_ast (snd p) (fst p)) c2) (combine fxs fxhs) with
                | Ok rs => (Ok (List.concat rs), remove_var c2 x)
                | r => (rmap (@List.concat _) r, c2)
                end
          | r => (r, c2)
          end
      | r => (r, c1)
      end
  | _ => (Err (MathError "Only scalar values are allowed!"), c0)
  end.

(** calculus.rs:93-129 [calculate_derivative_newton].  Only the result is
    modelled: every caller in the crate passes a temporary context
    (roots.rs:112). *)
Definition calculate_derivative_newton (expr : A) (x : str) (at_ : V) (fx : option V) (c : Ctx N)
  : res EvalError V :=
  let c0 := remove_var c x in
  match at_ with
  | Scalar s =>
      do fx <- match fx with
               | Some v => Ok v
               | None => do vs <- ev expr (add_var c0 (mkVar x [at_])); idx vs 0
               end;
      let c1 := add_var c0 (mkVar x [Scalar (nadd s eps)]) in
      do vs <- ev expr c1;
      do fxh <- idx vs 0;
      do rs <- ev (quotient_ast fxh fx) c1;
      idx rs 0
  | _ => Err (MathError "Only scalar values are allowed!")
  end.

(** ** roots.rs *)

(** roots.rs:8-20: drop values that agree with an earlier one after rounding. *)
Definition dedupe (l : list V) : list V :=
  fold_left (fun acc i =>
      if existsb (fun j => value_eqb (value_round (PREC - 2) i) (value_round (PREC - 2) j)) acc
      then acc else acc ++ [i]) l [].

(** [sort_by(|a, b| key(a).partial_cmp(&key(b)).unwrap())]: a stable sort; it
    panics when a key is not comparable (NaN).  Rust's sort compares every
    element of a slice of two or more at least once. *)
Fixpoint insert_by (key : V -> T) (x : V) (l : list V) : list V :=
  match l with
  | [] => [x]
  | y :: t => if nltb (key y) (key x) then y :: insert_by key x t else x :: l
  end.
Definition sort_key (key : V -> option T) (l : list V) : res EvalError (list V) :=
  do ks <- mapM (fun v => unwrap (key v)) l;
  if existsb nis_nan ks then Panic
  else Ok (fold_right (insert_by (fun v => match key v with Some k => k | None => n0 end)) [] l).

(** roots.rs:3-38 [clean_results] *)
Definition clean_results (r : list V) : res EvalError (list V) :=
  match r with
  | [] => Ok []
  | r0 :: _ =>
      let l := dedupe r in
      let by_key key :=
        if Nat.ltb 10 (List.length l) then
          do s <- sort_key (fun v => option_map nabs (key v)) l;
          do t <- slice s 0 10;
          sort_key key t
        else Ok l in
      match r0 with
      | Scalar _ => by_key get_scalar
      | Vector _ => by_key (fun v => match get_vector v with Some w => nth_error w 0 | None => None end)
      | Matrix _ => Ok l
      end
  end.

(** roots.rs:40-97 [gauss_algorithm].  [v.len() - 1] underflows and [v\[0\]]
    panics on the empty system, which no caller passes. *)
Definition gauss_algorithm (v : list (list T)) : res EvalError (list T) :=
  do c <- row0_len v;
  if negb (Nat.eqb (List.length v + 1) c) then Err UnderdeterminedSystem
  else
    do v <- eliminate InfiniteSolutions v;
    do v <- eliminate InfiniteSolutions (flip 1 v);
    do r <- mapM (fun i => do row <- idx v i;
                           do x <- idx row (List.length row - 1); do p <- idx row i;
                           Ok (ndiv x p))
              (seq 0 (List.length v));
    Ok (rev r).

(** [i.values.get(0).unwrap()] then [get_scalar().unwrap()] *)
Definition first_scalar (v : MVar N) : res EvalError T :=
  do x <- idx (var_values v) 0; unwrap (get_scalar x).

(** The other search variables, pushed after the context (roots.rs:106-111). *)
Definition others (j : nat) (x : list (MVar N)) : list (MVar N) :=
  firstn j x ++ skipn (S j) x.

(** roots.rs:99-137 [jacobi_and_gauss] *)
Definition jacobi_and_gauss (search : list A) (x : list (MVar N)) (c : Ctx N) (fx : list T)
  : res EvalError (list (MVar N)) :=
  do jac <- mapM (fun i =>
              do e <- idx search i;
              do row <- mapM (fun j =>
                  do xj <- idx x j;
                  do at_ <- idx (var_values xj) 0;
                  do f <- idx fx i;
                  do d <- calculate_derivative_newton e (var_name xj) at_ (Some (Scalar f))
                            (mkCtx (vars c ++ others j x) (funs c));
                  unwrap (get_scalar d)) (seq 0 (List.length x));
              Ok row) (seq 0 (List.length search));
  do aug <- mapM (fun i => do row <- idx jac i; do f <- idx fx i; Ok (row ++ [nmul nm1 f]))
              (seq 0 (List.length jac));
  do delta <- gauss_algorithm aug;
  mapM (fun i =>
      do xi <- idx x i; do d <- idx delta i; do s <- first_scalar xi;
      Ok (mkVar (var_name xi) [Scalar (nadd d s)])) (seq 0 (List.length x)).

Inductive NewtonReturn := NextX (x : list (MVar N)) | FinishedX (x : list (MVar N)).

(** [eval(i, context)?.get(0).unwrap().get_scalar().unwrap()] *)
Definition eval_scalar (c : Ctx N) (e : A) : res EvalError T :=
  do vs <- ev e c; do v <- idx vs 0; unwrap (get_scalar v).

(** [fx.iter().map(|f| f.powi(2)).sum::<f64>().sqrt()].  (Newer standard
    libraries start the sum at [-0.]; the comparisons it feeds cannot tell.) *)
Definition norm (fx : list T) : T :=
  nsqrt (fold_left (fun s f => nadd s (npowi f 2)) fx n0).
(** roots.rs:155, 169 *)
Definition small (fx : list T) : bool := (nltb (nopp eps) (norm fx) && nltb (norm fx) eps)%bool.

Definition add_all (c : Ctx N) (x : list (MVar N)) : Ctx N := fold_left add_var x c.
Definition remove_all (c : Ctx N) (x : list (MVar N)) : Ctx N :=
  fold_left (fun c v => remove_var c (var_name v)) x c.

(** roots.rs:144-187 [newton]; the second component is the caller's context
    afterwards. *)
Definition newton (search check : list A) (x : list (MVar N)) (c : Ctx N)
  : res EvalError NewtonReturn * Ctx N :=
  let c1 := add_all c x in
  match mapM (eval_scalar c1) search with
  | Ok fx =>
      let c2 := remove_all c1 x in
      if small fx then
        let c3 := add_all c2 x in
        match mapM (eval_scalar c3) check with
        | Ok cr =>
            let c4 := remove_all c3 x in
            match cr with
            | [] => (Ok (FinishedX x), c4)
            | _ => if small cr then (Ok (FinishedX x), c4) else (Err ExpressionCheckFailed, c4)
            end
        | Err e => (Err e, c3) | Panic => (Panic, c3) | Fuel => (Fuel, c3)
        end
      else
        match jacobi_and_gauss search x c2 fx with
        | Ok new_x =>
            match mapM (fun i => do v <- idx (var_values i) 0; Ok (is_inf_or_nan v)) new_x with
            | Ok bad => if existsb (fun b => b) bad then (Err NaNOrInf, c2) else (Ok (NextX new_x), c2)
            | Err e => (Err e, c2) | Panic => (Panic, c2) | Fuel => (Fuel, c2)
            end
        | Err e => (Err e, c2) | Panic => (Panic, c2) | Fuel => (Fuel, c2)
        end
  | Err e => (Err e, c1) | Panic => (Panic, c1) | Fuel => (Fuel, c1)
  end.

(** roots.rs:189-200 [generate_combinations]; recursion on [arr]. *)
Fixpoint gen_comb (arr : list nat) (len : nat) (prev : list nat) : list (list nat) :=
  if Nat.eqb (List.length prev) len then [prev]
  else match arr with
       | [] => []
       | v :: t => gen_comb t len (prev ++ [v]) ++ gen_comb_rest t len prev
       end
(** the remaining iterations of the loop over [arr] *)
with gen_comb_rest (arr : list nat) (len : nat) (prev : list nat) : list (list nat) :=
  match arr with
  | [] => []
  | v :: t => gen_comb t len (prev ++ [v]) ++ gen_comb_rest t len prev
  end.
Definition generate_combinations (arr : list nat) (len : nat) (prev : list nat) : list (list nat) :=
  gen_comb arr len prev.

(** roots.rs:202-209 [RootFinder] *)
Record RootFinder : Type := mkRF {
  rf_expressions : list A; rf_combinations : list (list nat);
  rf_context : Ctx N; rf_search_vars : list str }.

(** roots.rs:225-235: an expression that is not an operation. *)
Definition is_operation (e : A) : bool :=
  match e with AOp _ _ _ | AInt _ _ _ _ | ADer _ _ _ | AEq _ _ => true | _ => false end.

(** roots.rs:219-272 [RootFinder::new] *)
Definition rf_new (es : list A) (c : Ctx N) (sv : list str) : res EvalError RootFinder :=
  match es with
  | [] => Err NothingToDoEq
  | e0 :: _ =>
      if negb (forallb is_operation es) then Err NothingToDoEq
      else if existsb (fun n => existsb (fun v => str_eqb (var_name v) n) (vars c)) sv
      then Err SearchVarsInVars
      else if Nat.ltb (List.length es) (List.length sv) then Err UnderdeterminedSystem
      else
        let c1 := fold_left (fun c n => add_var c (mkVar n [Scalar nprobe])) sv c in
        do initial <- ev e0 c1;
        let c2 := fold_left remove_var sv c1 in
        do v <- idx initial 0;
        match v with
        | Vector _ => Err VectorInEq
        | Matrix _ => Err MatrixInEq
        | Scalar _ =>
            let all := seq 0 (List.length es) in
            let combs := if Nat.ltb (List.length sv) (List.length es)
                         then generate_combinations all (List.length sv) [] else [all] in
            Ok (mkRF es combs c2 sv)
        end
  end.

(** [v.remove(i)]: the element and the rest; panics when out of bounds. *)
Definition take_at {E X} (i : nat) (l : list X) : res E (X * list X) :=
  do x <- idx l i; Ok (x, firstn i l ++ skipn (S i) l).

(** roots.rs:281-287: move the expressions of the combination out of the
    list; [*j-removed] underflows if [j < removed]. *)
Definition split_exprs (es : list A) (comb : list nat) : res EvalError (list A * list A) :=
  do s <- foldM (fun (s : list A * list A * nat) j =>
            let '(search, check, removed) := s in
            if Nat.ltb j removed then Panic
            else do xr <- take_at (j - removed) check;
                 Ok (search ++ [fst xr], snd xr, S removed))
          comb ([], es, 0);
  Ok (fst s).

(** One starting value of roots.rs:297-328: up to [n] Newton steps.  [Ok
    (Some v, b, c)]: [v] was pushed; [b]: break the outer loop. *)
Fixpoint newton_loop (n : nat) (search check : list A) (x : list (MVar N)) (c : Ctx N)
  : res EvalError (option V * bool * Ctx N) :=
  match n with
  | O => Ok (None, false, c)
  | S n =>
      let '(r, c) := newton search check x c in
      match r with
      | Ok (NextX x') => newton_loop n search check x' c
      | Ok (FinishedX x') =>
          do rs <- mapM first_scalar x';
          match rs with
          | [s] => Ok (Some (Scalar s), false, c)
          | _ => Ok (Some (Vector rs), false, c)
          end
      | Err InfiniteSolutions => Ok (None, true, c)
      | Err NaNOrInf => Ok (None, false, c)
      | Err ExpressionCheckFailed => Ok (None, false, c)
      | Err e => Err e
      | Panic => Panic
      | Fuel => Fuel
      end
  end.

(** roots.rs:290-329: the loop over the starting values [js]. *)
Fixpoint start_loop (js : list Z) (search check : list A) (sv : list str) (c : Ctx N)
         (results : list V) : res EvalError (list V) :=
  match js with
  | [] => Ok results
  | j :: js =>
      let x := map (fun k => mkVar k [Scalar (nof_Z j)]) sv in
      do r <- newton_loop 1000 search check x c;
      let '(v, stop, c) := r in
      let results := match v with Some v => results ++ [v] | None => results end in
      if (stop : bool) then Ok results else start_loop js search check sv c results
  end.

(** [-1000..1000] *)
Definition starts : list Z := map (fun i => (Z.of_nat i - 1000)%Z) (seq 0 2000).

(** roots.rs:279-340: the loop over the combinations. *)
Fixpoint comb_loop (combs : list (list nat)) (es : list A) (c : Ctx N) (sv : list str) : RV :=
  match combs with
  | [] => Ok []
  | i :: combs =>
      do sc <- split_exprs es i;
      do results <- start_loop starts (fst sc) (snd sc) sv c [];
      do cleaned <- clean_results results;
      match cleaned with
      | [] => comb_loop combs es c sv
      | _ => Ok cleaned
      end
  end.

(** roots.rs:278-343 [RootFinder::find_roots] *)
Definition find_roots (rf : RootFinder) : RV :=
  comb_loop (rf_combinations rf) (rf_expressions rf) (rf_context rf) (rf_search_vars rf).

(** solver.rs:8-22 [solve] *)
Definition solve (equations : list (A * A)) (c : Ctx N) (sv : list str) : RV :=
  let es := map (fun i => AOp OSub (fst i) (snd i)) equations in
  do rf <- rf_new es c sv;
  find_roots rf.
End Higher.

(** parser.rs:397-586 [eval_rec], on fuel.  The fuel bounds the depth of the
    recursion and the number of iterations of each integration loop. *)
Fixpoint eval_rec (fuel : nat) (b : A) (c : Ctx N) (last_fn : str) : RV :=
  match fuel with
  | O => Fuel
  | S f =>
      let ev := fun b c => eval_rec f b c [] in
      match b with
      | AScalar s => Ok [Scalar s]
      | AVector v =>
          do fields <- mapM (fun i => do vs <- eval_rec f i c last_fn; scalars_or NonScalarInVector vs) v;
          Ok (map Vector (cart_prod fields))
      | AMatrix m =>
          do rows <- mapM (mapM (fun j => do vs <- eval_rec f j c last_fn;
                                          scalars_or NonScalarInMatrix vs)) m;
          Ok (map Matrix (cart_prod (map cart_prod rows)))
      | AList l => concatM (fun e => eval_rec f e c last_fn) l
      | AVar n =>
          match lookup_var c n with
          | Some v => Ok (var_values v)
          | None => Err (NoVariable n)
          end
      | AFun name inputs =>
          if str_eqb last_fn name then Err RecursiveFunction
          else match lookup_fun c name with
               | None => Err (NoFunction name)
               | Some fn =>
                   if negb (Nat.eqb (List.length inputs) (List.length (fun_inputs fn)))
                   then Err (WrongNumberOfArgs (List.length (fun_inputs fn)) (List.length inputs))
                   else
                     do args <- mapM (fun i => eval_rec f i c last_fn) inputs;
                     concatM (fun p => eval_rec f (fun_ast fn)
                                 (mkCtx (call_vars (fun_inputs fn) p (vars c)) (funs c)) name)
                             (cart_prod args)
               end
      | AOp op l r =>
          do lv <- eval_rec f l c last_fn;
          do rv <- eval_rec f r c last_fn;
          concatM (fun i => concatM (fun j => apply_op op i j) rv) lv
      | AInt e x lb ub =>
          do lvs <- eval_rec f lb c last_fn;
          do uvs <- eval_rec f ub c last_fn;
          concatM (fun i => concatM (fun j => calculate_integral ev f e x i j c) uvs) lvs
      | ADer e x at_ =>
          do avs <- eval_rec f at_ c last_fn;
          concatM (fun i => fst (calculate_derivative ev e x i c)) avs
      | AEq eqs sv =>
          let es := map (fun i => AOp OSub (fst i) (snd i)) eqs in
          do rf <- rf_new ev es c sv;
          find_roots ev rf
      end
  end.

(** parser.rs:393-395 [eval] *)
Definition eval (fuel : nat) (b : A) (c : Ctx N) : RV := eval_rec fuel b c [].

(** lib.rs:168-173 [quick_eval] (errors.rs:175-185 for the conversions) *)
Definition quick_eval (fuel : nat) (s : str) (c : Ctx N) : res QuickEvalError (list V) :=
  do b <- map_err QParserError (parse s);
  map_err QEvalError (eval fuel b c).

End Eval.
