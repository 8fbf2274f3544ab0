(** Model of covariance functions with several outputs ([randprocs/covfuncs/_stack.py],
    [_independent_multi_output.py], [_zero.py]), of cross-covariances between a process
    and a random vector ([randprocs/crosscov]) and of linear functionals applied to
    both ([randprocs/covfuncs/linfunctls/_registry.py],
    [randprocs/crosscov/linfunctls/]).

    Arrays are [NdData.nd], linear operators the matrices they represent.  dtypes,
    caching and the object identity tests of the evaluation functionals (which only
    save work) are not modelled. *)
From Coq Require Import List Arith Bool.
From Verif Require Import Base NdArray NdData BlockModel CovModel.
Import ListNotations.

(** Calls in order, the first exception propagates ([Base.mapM], with the function as a
    parameter so that it may be a recursive call). *)
Section MapR.
Context {A B : Type} (f : A -> result B).
Fixpoint mapR (l : list A) : result (list B) :=
  match l with [] => Ok [] | x :: l' => bind (f x) (fun y => bind (mapR l') (fun ys => Ok (y :: ys))) end.
End MapR.

Section Cross.
Context {F : fops}.

(** ** NumPy primitives *)
(** Position of an axis in a permutation. *)
Fixpoint pos (p : nat) (perm : list nat) : nat :=
  match perm with [] => 0 | q :: r => if p =? q then 0 else S (pos p r) end.
(** [np.transpose(a, perm)]: axis [m] of the result is axis [perm\[m\]] of [a]; ValueError
    unless every axis occurs once. *)
Definition np_transpose (a : nd F) (perm : list nat) : result (nd F) :=
  if (length perm =? length (nshape a)) && forallb (fun ax => existsb (Nat.eqb ax) perm) (seq 0 (length (nshape a)))
  then Ok (Nd (map (fun p => nth p (nshape a) 0) perm)
              (fun l => nat_ a (map (fun ax => nth (pos ax perm) l 0) (seq 0 (length perm)))))
  else Err ValueError.
(** [np.expand_dims(a, axis=tuple(range(off, off + n)))] *)
Definition np_expand (a : nd F) (off n : nat) : nd F :=
  Nd (firstn off (nshape a) ++ repeat 1 n ++ skipn off (nshape a))
     (fun l => nat_ a (firstn off l ++ skipn (off + n) l)).
(** [np.moveaxis(a, src, range(len(src)))] *)
Definition np_to_front (a : nd F) (src : list nat) : result (nd F) :=
  np_transpose a (src ++ filter (fun ax => negb (existsb (Nat.eqb ax) src)) (seq 0 (length (nshape a)))).
(** [linop(a, axis=ax)]: the operator applied along one axis; ValueError if the
    length does not fit. *)
Definition lin_axis (A : mat F) (a : nd F) (ax : nat) : result (nd F) :=
  if (ax <? length (nshape a)) && (nth ax (nshape a) 0 =? ncols A) then
    Ok (Nd (firstn ax (nshape a) ++ nrows A :: skipn (S ax) (nshape a))
           (fun l => fsum (map (fun k => fmul (entry A (nth ax l 0) k) (nat_ a (firstn ax l ++ k :: skipn (S ax) l)))
                               (seq 0 (ncols A)))))
  else Err ValueError.
(** [c * op] and [op0 + op1] for probnum operators; sums of different shapes raise
    ValueError. *)
Definition mat_scale (c : F) (m : mat F) : mat F := mkmat (nrows m) (ncols m) (fun i j => fmul c (entry m i j)).
Definition mat_add_checked (a b : mat F) : result (mat F) :=
  if (nrows a =? nrows b) && (ncols a =? ncols b) then Ok (mat_add a b) else Err ValueError.
(** [pn.linops.BlockDiagonalMatrix] *)
Fixpoint block_diag (l : list (mat F)) : mat F :=
  match l with
  | [] => mkmat 0 0 (fun _ _ => f0)
  | a :: l' => let b := block_diag l' in
      mkmat (nrows a + nrows b) (ncols a + ncols b) (fun i j =>
        if i <? nrows a then (if j <? ncols a then entry a i j else f0)
        else (if j <? ncols a then f0 else entry b (i - nrows a) (j - ncols a)))
  end.
(** [functools.reduce(f, l)]; TypeError on the empty sequence. *)
Fixpoint reduceM {A} (f : A -> A -> result A) (acc : A) (l : list A) : result A :=
  match l with [] => Ok acc | x :: l' => bind (f acc x) (fun y => reduceM f y l') end.
Definition reduce {A} (f : A -> A -> result A) (l : list A) : result A :=
  match l with [] => Err TypeError | x :: l' => reduceM f x l' end.
(** [a + b] of arrays of equal shape; other shapes are not needed here. *)
Definition nd_add (a b : nd F) : result (nd F) :=
  if shape_eqb (nshape a) (nshape b) then Ok (nd_map2 fadd a b) else Err Unmodelled.

(** ** Points *)
(** A point: its coordinates. *)
Definition point := index -> F.
(** The point number [i] of an array of points. *)
Definition pt (x : nd F) (i : index) : point := fun j => nat_ x (i ++ j).
(** The batch shape of an array of points of shape [insh]: ValueError unless the
    trailing axes are [insh] ([_pv_crosscov.py] 63-73, probnum's [_check_shapes]). *)
Definition batch_shape (insh : shape) (x : nd F) : result shape :=
  let d := length (nshape x) - length insh in
  if shape_eqb (skipn d (nshape x)) insh then Ok (firstn d (nshape x)) else Err ValueError.
(** [x1] defaults to [x0]. *)
Definition second (x0 : nd F) (x1 : option (nd F)) : nd F := match x1 with Some y => y | None => x0 end.

(** ** Covariance functions *)
(** [KLeaf]: any covariance function obeying probnum's documented contract (values in
    [_evaluate], [_evaluate_jax] and [linop]); input shapes of both arguments are
    equal.  The others are the classes of [covfuncs/_zero.py],
    [_independent_multi_output.py] and [_stack.py] (the object array as shape and
    entries in C order). *)
Inductive kfun :=
  | KLeaf (insh out0 out1 : shape) (v : point -> point -> index -> index -> F)
  | KZero (insh out0 out1 : shape)
  | KInd (l : list kfun)
  | KStack (sh : shape) (l : list kfun) (output_idx : nat).

(** [input_shape]; for the composites that of the first entry
    ([_independent_multi_output.py] 14-26, [_stack.py] 46-51). *)
Fixpoint k_in (k : kfun) : shape :=
  match k with
  | KLeaf s _ _ _ | KZero s _ _ => s
  | KInd l | KStack _ l _ => match l with c :: _ => k_in c | [] => [] end
  end.
(** [output_shape_0], [output_shape_1] ([_independent_multi_output.py] 22-26,
    [_stack.py] 46-51) *)
Definition k_out0 (k : kfun) : shape :=
  match k with
  | KLeaf _ s _ _ | KZero _ s _ => s
  | KInd l => [length l]
  | KStack sh _ idx => if idx =? 0 then sh else []
  end.
Definition k_out1 (k : kfun) : shape :=
  match k with
  | KLeaf _ _ s _ | KZero _ _ s => s
  | KInd l => [length l]
  | KStack sh _ idx => if idx =? 1 then sh else []
  end.

(** [IndependentMultiOutputCovarianceFunction.__init__] ([_independent_multi_output.py]
    13-26) *)
Definition mk_ind (l : list kfun) : result kfun :=
  match l with
  | [] => Err AssertionError
  | c :: _ =>
      if forallb (fun k => shape_eqb (k_in k) (k_in c) && shape_eqb (k_out0 k) [] && shape_eqb (k_out1 k) []) l
      then Ok (KInd l) else Err AssertionError
  end.
(** [StackCovarianceFunction.__init__] ([_stack.py] 17-51); an array without entries
    raises IndexError.  [np.asarray] of a list of covariance functions has at least
    one axis. *)
Definition mk_stack (sh : shape) (l : list kfun) (output_idx : nat) : result kfun :=
  match l with
  | [] => Err IndexError
  | c :: _ =>
      if negb (forallb (fun k => shape_eqb (k_in k) (k_in c)) l) then Err ValueError
      else if negb (forallb (fun k => shape_eqb (k_out0 k) [] && shape_eqb (k_out1 k) []) l) then Err ValueError
      else if negb ((output_idx =? 0) || (output_idx =? 1)) then Err ValueError
      else Ok (KStack sh l output_idx)
  end.

(** probnum's [_check_shapes]: the broadcast batch shape. *)
Definition check_shapes (insh : shape) (x0 : nd F) (x1 : option (nd F)) : result shape :=
  bind (batch_shape insh x0) (fun b0 => bind (batch_shape insh (second x0 x1)) (fun b1 => broadcast_shapes b0 b1)).
(** Final check of probnum's [__call__]: batch + output shapes. *)
Definition k_finish (k : kfun) (b : shape) (a : nd F) : result (nd F) :=
  if shape_eqb (nshape a) (b ++ k_out0 k ++ k_out1 k) then Ok a else Err AssertionError.
(** Pointwise evaluation of a function of two points along broadcast batches. *)
Definition leaf_eval (insh out0 out1 : shape) (v : point -> point -> index -> index -> F)
    (x0 : nd F) (x1 : option (nd F)) : result (nd F) :=
  bind (batch_shape insh x0) (fun b0 => bind (batch_shape insh (second x0 x1)) (fun b1 =>
  bind (broadcast_shapes b0 b1) (fun b =>
  Ok (Nd (b ++ out0 ++ out1) (fun l =>
        let i := firstn (length b) l in let r := skipn (length b) l in
        v (pt x0 (operand_index b0 i)) (pt (second x0 x1) (operand_index b1 i))
          (firstn (length out0) r) (skipn (length out0) r)))))).
(** [np.zeros(batch_shape + covfuncs.shape)] filled by [res\[(..., *idx)\] = eval_at_idx]
    ([_stack.py] 61-72); all entries have the same shape. *)
Definition fill_last (sh : shape) (evals : list (nd F)) : result (nd F) :=
  match evals with
  | [] => Err TypeError
  | e :: _ =>
      if forallb (fun a => shape_eqb (nshape a) (nshape e)) evals then
        Ok (Nd (nshape e ++ sh) (fun l =>
              nat_ (nth (ravel sh (skipn (length (nshape e)) l)) evals e) (firstn (length (nshape e)) l)))
      else Err ValueError
  end.

(** [__call__] (NumPy): [_evaluate] of [_independent_multi_output.py] 32-46, [_stack.py]
    61-72, [_zero.py] 12-20 *)
Fixpoint k_call (k : kfun) (x0 : nd F) (x1 : option (nd F)) : result (nd F) :=
  bind (check_shapes (k_in k) x0 x1) (fun b =>
  bind (match k with
        | KLeaf insh out0 out1 v => leaf_eval insh out0 out1 v x0 x1
        | KZero _ out0 out1 => Ok (Nd (b ++ out0 ++ out1) (fun _ => f0))
        | KInd l =>
            bind (mapR (fun c => k_call c x0 x1) l) (fun evals =>
            Ok (Nd (b ++ [length l; length l]) (fun i =>
                  match skipn (length b) i with
                  | [p; q] => if p =? q then nat_ (nth p evals (Nd [] (fun _ => f0))) (firstn (length b) i) else f0
                  | _ => f0
                  end)))
        | KStack sh l _ => bind (mapR (fun c => k_call c x0 x1) l) (fill_last sh)
        end) (k_finish k b)).
(** [jax]: [_evaluate_jax] of [_independent_multi_output.py] 48-64, [_zero.py] 22-30, and
    [_stack.py] 74-85, where the result of [res.at\[...\].set] is dropped. *)
Fixpoint k_jax (k : kfun) (x0 : nd F) (x1 : option (nd F)) : result (nd F) :=
  bind (check_shapes (k_in k) x0 x1) (fun b =>
  bind (match k with
        | KLeaf insh out0 out1 v => leaf_eval insh out0 out1 v x0 x1
        | KZero _ out0 out1 => Ok (Nd (b ++ out0 ++ out1) (fun _ => f0))
        | KInd l =>
            bind (mapR (fun c => k_jax c x0 x1) l) (fun evals =>
            Ok (Nd (b ++ [length l; length l]) (fun i =>
                  match skipn (length b) i with
                  | [p; q] => if p =? q then nat_ (nth p evals (Nd [] (fun _ => f0))) (firstn (length b) i) else f0
                  | _ => f0
                  end)))
        | KStack sh l _ =>
            bind (mapR (fun c => k_jax c x0 x1) l) (fun evals =>
            match evals with
            | [] => Err TypeError
            | e :: _ => Ok (Nd (nshape e ++ sh) (fun _ => f0))
            end)
        end) (k_finish k b)).
(** [BlockMatrix(...)] as the matrix it represents *)
Definition block_linop (blocks : list (list (mat F))) : result (mat F) :=
  bind (mk_block_matrix blocks) bm_todense.
(** [linop]: [_independent_multi_output.py] 66-71, [_stack.py] 87-104; the default is
    probnum's matrix over all pairs of points, outputs first.  [Zero._evaluate_linop]
    ([_zero.py] 32-40) reads the number of points off the first axis and is modelled
    for points with exactly one batch axis. *)
Fixpoint k_linop (k : kfun) (x0 : nd F) (x1 : option (nd F)) : result (mat F) :=
  match k with
  | KLeaf insh out0 out1 v =>
      bind (batch_shape insh x0) (fun b0 => bind (batch_shape insh (second x0 x1)) (fun b1 =>
      Ok (mkmat (size out0 * size b0) (size out1 * size b1) (fun r c =>
            let i := unravel (out0 ++ b0) r in let j := unravel (out1 ++ b1) c in
            v (pt x0 (skipn (length out0) i)) (pt (second x0 x1) (skipn (length out1) j))
              (firstn (length out0) i) (firstn (length out1) j)))))
  | KZero insh out0 out1 =>
      bind (batch_shape insh x0) (fun b0 => bind (batch_shape insh (second x0 x1)) (fun b1 =>
      match b0, b1 with
      | [n0], [n1] => Ok (zero_mat (size out0 * n0) (size out1 * n1))
      | _, _ => Err Unmodelled
      end))
  | KInd l => bind (mapR (fun c => k_linop c x0 x1) l) (fun ms => Ok (block_diag ms))
  | KStack _ l idx =>
      bind (mapR (fun c => k_linop c x0 x1) l) (fun ms =>
      block_linop (if idx =? 0 then map (fun m => [m]) ms else [ms]))
  end.

(** ** Evaluation functionals *)
(** [DiracFunctional] ([linfunctls/_dirac.py] 10-45) and [_EvaluationFunctional]
    ([linfunctls/_evaluation.py] 10-64): domain, codomain and points. *)
Record evalf := mkevalf { ev_dirac : bool; ev_dom : shape; ev_cod : shape; ev_X : nd F }.
(** [__init__] ([_dirac.py] 11-25, [_evaluation.py] 21-35) *)
Definition mk_evalf (dirac : bool) (dom cod : shape) (X : nd F) : result evalf :=
  let b := firstn (length (nshape X) - length dom) (nshape X) in
  if shape_eqb (nshape X) (b ++ dom) then Ok (mkevalf dirac dom cod X) else Err AssertionError.
(** [X_batch_shape] *)
Definition ev_batch (e : evalf) : shape := firstn (length (nshape (ev_X e)) - length (ev_dom e)) (nshape (ev_X e)).
(** [output_shape] ([_dirac.py] 22-25, [_evaluation.py] 32-35) *)
Definition ev_out (e : evalf) : shape := if ev_dirac e then ev_batch e ++ ev_cod e else ev_cod e ++ ev_batch e.
(** Application to a function ([_dirac.py] 43-45, [_evaluation.py] 53-64) *)
Definition ev_fun (e : evalf) (fout : shape) (f : nd F -> result (nd F)) : result (nd F) :=
  if ev_dirac e then f (ev_X e)
  else bind (f (ev_X e)) (fun res =>
    if shape_eqb (nshape res) (ev_batch e ++ fout) then
      if 0 <? length fout
      then np_to_front res (seq (length (nshape res) - length fout) (length fout))
      else Ok res
    else Err AssertionError).

(** ** Cross-covariances *)
(** [PLeaf]: a cross-covariance that implements only the array view (integrals,
    projections), obeying the documented shapes.  [PEval k e true] is
    [CovarianceFunction_Dirac_Identity] / [CovarianceFunction_Evaluation_Identity],
    [PEval k e false] the same with the functional on the second argument.  [PParam]:
    [crosscov/_parametric.py], the basis as a function of points with [n] values. *)
Inductive pvcc :=
  | PLeaf (insh outsh rv : shape) (rev : bool) (v : point -> index -> index -> F)
  | PZero (insh outsh rv : shape) (rev : bool)
  | PEval (k : kfun) (e : evalf) (rev : bool)
  | PParam (c : covariance F) (insh : shape) (n : nat) (basis : point -> nat -> F) (rev : bool)
  | PScaled (c : F) (p : pvcc)
  | PSum (l : list pvcc)
  | PLinOp (A : mat F) (p : pvcc)
  | PStack (sh : shape) (l : list pvcc).

(** [randproc_input_shape], [randproc_output_shape], [randvar_shape], [reverse] as passed
    to [super().__init__] ([_arithmetic.py] 22-27, 64-69, 103-108; [_stack.py] 39-44;
    [_parametric.py] 20-25; [linfunctls/_dirac.py] 30-35, 168-173;
    [linfunctls/_evaluation.py] 30-35, 185-194). *)
Fixpoint p_in (p : pvcc) : shape :=
  match p with
  | PLeaf s _ _ _ _ | PZero s _ _ _ => s
  | PEval k _ _ => k_in k
  | PParam _ s _ _ _ => s
  | PScaled _ q | PLinOp _ q => p_in q
  | PSum l | PStack _ l => match l with q :: _ => p_in q | [] => [] end
  end.
Fixpoint p_out (p : pvcc) : shape :=
  match p with
  | PLeaf _ s _ _ _ | PZero _ s _ _ => s
  | PEval k e rev =>
      if rev then (if ev_dirac e then k_out1 k else skipn (length (ev_cod e)) (k_out0 k ++ k_out1 k)) else k_out0 k
  | PParam _ _ _ _ _ => []
  | PScaled _ q | PLinOp _ q => p_out q
  | PSum l => match l with q :: _ => p_out q | [] => [] end
  | PStack sh _ => sh
  end.
Fixpoint p_rv (p : pvcc) : shape :=
  match p with
  | PLeaf _ _ s _ _ | PZero _ _ s _ => s
  | PEval _ e _ => ev_out e
  | PParam c _ _ _ rev => if rev then cshape0 c else cshape1 c
  | PScaled _ q => p_rv q
  | PLinOp A _ => [nrows A]
  | PSum l | PStack _ l => match l with q :: _ => p_rv q | [] => [] end
  end.
Fixpoint p_rev (p : pvcc) : bool :=
  match p with
  | PLeaf _ _ _ r _ | PZero _ _ _ r | PEval _ _ r | PParam _ _ _ _ r => r
  | PScaled _ q | PLinOp _ q => p_rev q
  | PSum l | PStack _ l => match l with q :: _ => p_rev q | [] => false end
  end.

(** [SumProcessVectorCrossCovariance.__init__] ([_arithmetic.py] 50-69) *)
Definition mk_sum (l : list pvcc) : result pvcc :=
  match l with
  | [] => Err IndexError
  | q :: _ =>
      if forallb (fun p => shape_eqb (p_in p) (p_in q) && shape_eqb (p_out p) (p_out q)
                           && shape_eqb (p_rv p) (p_rv q) && Bool.eqb (p_rev p) (p_rev q)) l
      then Ok (PSum l) else Err AssertionError
  end.
(** [LinOpProcessVectorCrossCovariance.__init__] ([_arithmetic.py] 92-108) *)
Definition mk_plinop (A : mat F) (p : pvcc) : result pvcc :=
  if length (p_rv p) =? 1 then if shape_eqb [ncols A] (p_rv p) then Ok (PLinOp A p) else Err AssertionError
  else Err AssertionError.
(** [StackedProcessVectorCrossCovariance.__init__] ([_stack.py] 11-44) *)
Definition mk_pstack (sh : shape) (l : list pvcc) : result pvcc :=
  match l with
  | [] => Err IndexError
  | q :: _ =>
      if negb (forallb (fun p => shape_eqb (p_in p) (p_in q)) l) then Err ValueError
      else if negb (forallb (fun p => shape_eqb (p_out p) []) l) then Err ValueError
      else if negb (forallb (fun p => shape_eqb (p_rv p) (p_rv q)) l) then Err ValueError
      else if negb (forallb (fun p => Bool.eqb (p_rev p) (p_rev q)) l) then Err ValueError
      else Ok (PStack sh l)
  end.
(** [__add__], [__sub__], [__neg__], [__rmul__] ([_pv_crosscov.py] 163-187) *)
Definition p_add (p q : pvcc) : result pvcc := mk_sum [p; q].
Definition p_rmul (c : F) (p : pvcc) : pvcc := PScaled c p.
Definition p_neg (p : pvcc) : pvcc := p_rmul (fopp f1) p.
Definition p_sub (p q : pvcc) : result pvcc := p_add p (p_neg q).

(** Expected shape of the array view ([_pv_crosscov.py] 77-84) *)
Definition p_layout (rev : bool) (b out rv : shape) : shape := if rev then rv ++ b ++ out else b ++ out ++ rv.
Definition p_finish (p : pvcc) (b : shape) (a : nd F) : result (nd F) :=
  if shape_eqb (nshape a) (p_layout (p_rev p) b (p_out p) (p_rv p)) then Ok a else Err AssertionError.

(** [_evaluate] of the evaluation functionals ([linfunctls/_dirac.py] 45-98, 183-232;
    [linfunctls/_evaluation.py] 45-100, 204-257).  In the second case the points of the
    functional are passed as second argument. *)
Definition eval_array (k : kfun) (e : evalf) (rev : bool) (outsh xb : shape) (x : nd F) : result (nd F) :=
  let Xb := ev_batch e in
  let Xo := ev_cod e in
  if rev then
    let xb_off := length Xb in
    let Xo_off := xb_off + length xb in
    let xo_off := Xo_off + length Xo in
    let X := np_expand (ev_X e) xb_off (length xb) in
    if shape_eqb (nshape X) (Xb ++ repeat 1 (length xb) ++ k_in k) then
      bind (k_call k x (Some X)) (fun kxX =>
      if shape_eqb (nshape kxX) (Xb ++ xb ++ Xo ++ outsh) then
        np_transpose kxX
          ((if ev_dirac e then seq 0 (length Xb) ++ seq Xo_off (length Xo) else seq Xo_off (length Xo) ++ seq 0 (length Xb))
           ++ seq xb_off (length xb) ++ seq xo_off (length outsh))
      else Err AssertionError)
    else Err AssertionError
  else
    let Xb_off := length xb in
    let xo_off := Xb_off + length Xb in
    let Xo_off := xo_off + length outsh in
    let x' := np_expand x Xb_off (length Xb) in
    if shape_eqb (nshape x') (xb ++ repeat 1 (length Xb) ++ k_in k)
       && shape_eqb (nshape (ev_X e)) (Xb ++ k_in k) then
      bind (k_call k x' (Some (ev_X e))) (fun kxX =>
      if shape_eqb (nshape kxX) (xb ++ Xb ++ outsh ++ Xo) then
        np_transpose kxX
          (seq 0 (length xb) ++ seq xo_off (length outsh) ++
           (if ev_dirac e then seq Xb_off (length Xb) ++ seq Xo_off (length Xo) else seq Xo_off (length Xo) ++ seq Xb_off (length Xb)))
      else Err AssertionError)
    else Err AssertionError.

(** [ParametricProcessVectorCrossCovariance._evaluate] ([_parametric.py] 35-41): the
    matrix of the cross-covariance applied to the values of the basis, for both
    orientations. *)
Definition param_array (c : covariance F) (n : nat) (basis : point -> nat -> F) (rev : bool) (b : shape) (x : nd F) : result (nd F) :=
  let phi := Nd (b ++ [n]) (fun l => basis (pt x (firstn (length b) l)) (nth (length b) l 0)) in
  bind (clinop c) (fun C => bind (lin_axis C phi (length b)) (fun a =>
  if rev then np_to_front a [length (nshape a) - 1] else Ok a)).

(** [StackedProcessVectorCrossCovariance._evaluate] ([_stack.py] 50-75) *)
Definition stack_array (sh rv : shape) (rev : bool) (evals : list (nd F)) : result (nd F) :=
  match evals with
  | [] => Err TypeError
  | e :: _ =>
      if rev then fill_last sh evals
      else
        let bsh := firstn (length (nshape e) - length rv) (nshape e) in
        if forallb (fun a => shape_eqb (nshape a) (nshape e)) evals then
          np_to_front
            (Nd (sh ++ bsh ++ rv) (fun l => nat_ (nth (ravel sh (firstn (length sh) l)) evals e) (skipn (length sh) l)))
            (seq (length sh) (length bsh))
        else Err ValueError
  end.

(** [__call__] ([_pv_crosscov.py] 60-86) and the [_evaluate] methods ([_arithmetic.py] 37-38,
    75-76, 118-122; [_zero.py] 8-18) *)
Fixpoint p_call (p : pvcc) (x : nd F) : result (nd F) :=
  bind (batch_shape (p_in p) x) (fun b =>
  bind (match p with
        | PLeaf _ outsh rv rev v =>
            Ok (Nd (p_layout rev b outsh rv) (fun l =>
                  if rev then v (pt x (firstn (length b) (skipn (length rv) l))) (skipn (length b) (skipn (length rv) l)) (firstn (length rv) l)
                  else v (pt x (firstn (length b) l)) (firstn (length outsh) (skipn (length b) l)) (skipn (length outsh) (skipn (length b) l))))
        | PZero _ outsh rv rev => Ok (Nd (p_layout rev b outsh rv) (fun _ => f0))
        | PEval k e rev => eval_array k e rev (p_out p) b x
        | PParam c _ n basis rev => param_array c n basis rev b x
        | PScaled c q => bind (p_call q x) (fun a => Ok (nd_map (fmul c) a))
        | PSum l => bind (mapR (fun q => p_call q x) l) (fun ls =>
            reduce nd_add (match ls with [] => [] | a :: r => nd_map (fadd f0) a :: r end))
        | PLinOp A q => bind (p_call q x) (fun a => lin_axis A a (if p_rev p then 0 else length (nshape a) - 1))
        | PStack sh l => bind (mapR (fun q => p_call q x) l) (stack_array sh (p_rv p) (p_rev p))
        end) (p_finish p b)).

(** [_move_shape_blocks] ([_pv_crosscov.py] 190-199) *)
Fixpoint block_axes (off : nat) (shapes : list shape) : list (list nat) :=
  match shapes with [] => [] | s :: r => seq off (length s) :: block_axes (off + length s) r end.
Definition move_shape_blocks (a : nd F) (shapes : list shape) (new_positions : list nat) : result (nd F) :=
  np_transpose a (concat (map (fun i => nth i (block_axes 0 shapes) []) new_positions)).
(** The fallback of [evaluate_linop] ([_pv_crosscov.py] 141-161) *)
Definition p_fallback (p : pvcc) (x : nd F) : result (mat F) :=
  bind (batch_shape (p_in p) x) (fun b =>
  bind (p_call p x) (fun a =>
  bind (if p_rev p then move_shape_blocks a [p_rv p; b; p_out p] [0; 2; 1]
        else move_shape_blocks a [b; p_out p; p_rv p] [1; 0; 2]) (fun t =>
  bind (reshape t (if p_rev p then [size (p_rv p); size (p_out p) * size b]
                   else [size (p_out p) * size b; size (p_rv p)])) (fun m =>
  Ok (mat_of_nd m))))).
(** [evaluate_linop] ([_pv_crosscov.py] 126-161) around [_evaluate_linop] *)
Definition p_public (own : result (mat F)) (p : pvcc) (x : nd F) : result (mat F) :=
  bind (batch_shape (p_in p) x) (fun _ =>
  match own with Err NotImplementedError => p_fallback p x | r => r end).
(** [_evaluate_linop] ([_pv_crosscov.py] 123-124; [_arithmetic.py] 43-46, 81-88, 127-130;
    [_stack.py] 104-119; [linfunctls/_dirac.py] 155-156, 285-286;
    [linfunctls/_evaluation.py] 159-160, 314-315) *)
Fixpoint p_own_linop (p : pvcc) (x : nd F) : result (mat F) :=
  match p with
  | PLeaf _ _ _ _ _ | PZero _ _ _ _ | PParam _ _ _ _ _ => Err NotImplementedError
  | PEval k e rev => if rev then k_linop k (ev_X e) (Some x) else k_linop k x (Some (ev_X e))
  | PScaled c q => bind (p_own_linop q x) (fun m => Ok (mat_scale c m))
  | PSum l => bind (mapR (fun q => p_own_linop q x) l) (reduce mat_add_checked)
  | PLinOp A q => bind (p_own_linop q x) (fun m => mat_mul A m)
  | PStack _ l =>
      bind (mapR (fun q => p_public (p_own_linop q x) q x) l) (fun ms =>
      block_linop (if p_rev p then [ms] else map (fun m => [m]) ms))
  end.
Definition p_linop (p : pvcc) (x : nd F) : result (mat F) := p_public (p_own_linop p x) p x.

(** ** Linear functionals *)
(** [FLeaf]: a functional with its own rules for covariance functions (integrals,
    projections), given by its action on functions; [FComp A f]: the composite
    [A @ f] without function operator ([linfunctls/_arithmetic.py] 92-122). *)
Record lfun := mklfun { lf_dom : shape; lf_cod : shape; lf_out : shape; lf_act : (point -> index -> F) -> index -> F }.
Inductive functl :=
  | FLeaf (L : lfun)
  | FEval (e : evalf)
  | FComp (A : mat F) (f : functl).
Fixpoint f_dom (f : functl) : shape := match f with FLeaf L => lf_dom L | FEval e => ev_dom e | FComp _ g => f_dom g end.
Fixpoint f_cod (f : functl) : shape := match f with FLeaf L => lf_cod L | FEval e => ev_cod e | FComp _ g => f_cod g end.
Definition f_out (f : functl) : shape := match f with FLeaf L => lf_out L | FEval e => ev_out e | FComp A _ => [nrows A] end.
(** [CompositeLinearFunctional.__init__] ([linfunctls/_arithmetic.py] 100-105) *)
Definition mk_fcomp (A : mat F) (f : functl) : result functl :=
  if (length (f_out f) =? 1) && shape_eqb (f_out f) [ncols A] then Ok (FComp A f) else Err AssertionError.

(** [validate_covfunc_transformation] ([covfuncs/_utils.py] 6-38) *)
Definition validate (dom cod : shape) (k : kfun) (argnum : nat) : result unit :=
  if negb ((argnum =? 0) || (argnum =? 1)) then Err ValueError
  else if negb (shape_eqb (k_in k) dom) then Err ValueError
  else if negb (shape_eqb (if argnum =? 0 then k_out0 k else k_out1 k) cod) then Err ValueError
  else Ok tt.

(** A functional with its own rules applied to a covariance function
    ([covfuncs/linfunctls/_registry.py] 64-90 for stacks and zero; for [KLeaf] the
    cross-covariance those rules have to produce). *)
Fixpoint lf_kern (L : lfun) (k : kfun) (argnum : nat) : result pvcc :=
  bind (validate (lf_dom L) (lf_cod L) k argnum) (fun _ =>
  match k with
  | KLeaf insh out0 out1 v =>
      if argnum =? 0 then Ok (PLeaf insh out1 (lf_out L) true (fun x o r => lf_act L (fun y q => v y x q o) r))
      else Ok (PLeaf insh out0 (lf_out L) false (fun x o r => lf_act L (fun y q => v x y o q) r))
  | KZero insh out0 out1 =>
      Ok (PZero insh (if argnum =? 0 then out1 else out0) (lf_out L) (argnum =? 0))
  | KStack sh l _ => bind (mapR (fun c => lf_kern L c argnum) l) (mk_pstack sh)
  | KInd _ => Err NotImplementedError
  end).
(** [functional(k, argnum=...)] ([covfuncs/linfunctls/_registry.py] 43-61, 98-149) *)
Fixpoint f_kern (f : functl) (k : kfun) (argnum : nat) : result pvcc :=
  match f with
  | FLeaf L => lf_kern L k argnum
  | FEval e => bind (validate (ev_dom e) (ev_cod e) k argnum) (fun _ => Ok (PEval k e (argnum =? 0)))
  | FComp A g => bind (validate (f_dom f) (f_cod f) k argnum) (fun _ =>
                 bind (f_kern g k argnum) (mk_plinop A))
  end.

(** Shapes of the covariance: the random vector first if [reverse]. *)
Definition cov_shapes (rev : bool) (fout rv : shape) : shape * shape := if rev then (rv, fout) else (fout, rv).
(** [linop(cov.array, axis=axis)] wrapped as a covariance
    ([crosscov/linfunctls/_linfunctl.py] 40-46, [crosscov/linfunctls/_arithmetic.py] 20-27) *)
Definition cov_lin_axis (A : mat F) (c : covariance F) (ax : nat) : result (covariance F) :=
  bind (carray c) (fun a => bind (lin_axis A a ax) (fun r =>
  array_cov r (firstn (length (cshape0 c)) (nshape r)) (skipn (length (cshape0 c)) (nshape r)))).
(** A functional with its own rules applied to a cross-covariance
    ([crosscov/linfunctls/_linfunctl.py] 21-82; for [PLeaf] the covariance those rules
    have to produce; the other classes have no general rule). *)
Fixpoint lf_pv (L : lfun) (p : pvcc) : result (covariance F) :=
  match p with
  | PLeaf _ _ rv rev v =>
      if rev then array_cov (Nd (rv ++ lf_out L) (fun l => lf_act L (fun x o => v x o (firstn (length rv) l)) (skipn (length rv) l))) rv (lf_out L)
      else array_cov (Nd (lf_out L ++ rv) (fun l => lf_act L (fun x o => v x o (skipn (length (lf_out L)) l)) (firstn (length (lf_out L)) l))) (lf_out L) rv
  | PScaled c q => bind (lf_pv L q) (crmul (Nd [] (fun _ => c)))
  | PSum l => bind (mapR (lf_pv L) l) (reduce cadd)
  | PLinOp A q => bind (lf_pv L q) (fun c =>
      cov_lin_axis A c (if p_rev p then length (cshape0 c) - 1 else length (cshape0 c) + length (cshape1 c) - 1))
  | PEval k e rev =>
      bind (lf_kern L k (if rev then 1 else 0)) (fun q => bind (p_call q (ev_X e)) (fun a =>
      if rev then array_cov a (ev_out e) (lf_out L) else array_cov a (lf_out L) (ev_out e)))
  | PZero _ _ _ _ | PParam _ _ _ _ _ | PStack _ _ => Err NotImplementedError
  end.
(** [functional(pv_crosscov)] ([crosscov/linfunctls/_dirac.py] 11-18,
    [crosscov/linfunctls/_evaluation.py] 11-18, 163-173, 318-326,
    [crosscov/linfunctls/_arithmetic.py] 7-27) *)
Fixpoint f_pv (f : functl) (p : pvcc) : result (covariance F) :=
  match f with
  | FLeaf L => lf_pv L p
  | FEval e =>
      let '(s0, s1) := cov_shapes (p_rev p) (ev_out e) (p_rv p) in
      bind (p_linop p (ev_X e)) (fun m => linop_cov m s0 s1)
  | FComp A g => bind (f_pv g p) (fun c =>
      cov_lin_axis A c (if p_rev p then length (cshape0 c) + length (cshape1 c) - 1 else length (cshape0 c) - 1))
  end.

(** ** Function operators on both *)
(** A linear function operator with its own rules, given by its action on functions. *)
Record lop := mklop { lo_dom : shape; lo_cod : shape; lo_out_dom : shape; lo_out_cod : shape;
                      lo_act : (point -> index -> F) -> point -> index -> F }.
(** [covfuncs/linfuncops/_registry.py] 34-60 for stacks and zero; for [KLeaf] the
    covariance function its own rules have to produce. The domains are not changed
    (covariance functions have one input shape here). *)
Fixpoint lo_kern (L : lop) (k : kfun) (argnum : nat) : result kfun :=
  bind (validate (lo_dom L) (lo_cod L) k argnum) (fun _ =>
  if negb (shape_eqb (lo_out_dom L) (k_in k)) then Err Unmodelled else
  match k with
  | KLeaf insh out0 out1 v =>
      if argnum =? 0 then Ok (KLeaf insh (lo_out_cod L) out1 (fun x y o q => lo_act L (fun z r => v z y r q) x o))
      else Ok (KLeaf insh out0 (lo_out_cod L) (fun x y o q => lo_act L (fun z r => v x z o r) y q))
  | KZero insh out0 out1 =>
      Ok (KZero insh (if argnum =? 0 then lo_out_cod L else out0) (if argnum =? 1 then lo_out_cod L else out1))
  | KStack sh l idx =>
      if ((argnum =? 0) && (idx =? 1)) || ((argnum =? 1) && (idx =? 0))
      then bind (mapR (fun c => lo_kern L c argnum) l) (fun l' => mk_stack sh l' idx)
      else Err NotImplementedError
  | KInd _ => Err NotImplementedError
  end).
(** [SelectOutput] on a stack and on independent outputs
    ([covfuncs/linfuncops/_registry.py] 82-120); [idx] is the selected multi-index, an
    out-of-range one raises IndexError. *)
Definition select_kern (L : lop) (idx : index) (k : kfun) (argnum : nat) : result kfun :=
  bind (validate (lo_dom L) (lo_cod L) k argnum) (fun _ =>
  match k with
  | KStack sh l oi =>
      if ((argnum =? 0) && (oi =? 0)) || ((argnum =? 1) && (oi =? 1))
      then match nth_error l (ravel sh idx) with
           | Some c => if (length idx =? length sh) && forallb (fun '(i, d) => i <? d) (combine idx sh) then Ok c else Err IndexError
           | None => Err IndexError
           end
      else lo_kern L k argnum
  | KInd l =>
      match idx with
      | [i] =>
          let z := KZero (k_in k) [] [] in
          match nth_error l i with
          | Some c => mk_stack [length l] (repeat z i ++ c :: repeat z (length l - i - 1)) (1 - argnum)
          | None => Err IndexError
          end
      | _ => Err AssertionError
      end
  | KLeaf _ _ _ _ | KZero _ _ _ => lo_kern L k argnum
  end).
(** [crosscov/linfuncops.py] 18-82: on evaluations of the first argument the operator is
    called with a keyword its rules for cross-covariances do not accept; no rules for
    transformed, stacked, parametric cross-covariances and for [PLeaf]. *)
Fixpoint lo_pv (L : lop) (p : pvcc) : result pvcc :=
  match p with
  | PScaled c q => bind (lo_pv L q) (fun q' => Ok (PScaled c q'))
  | PSum l => bind (mapR (lo_pv L) l) mk_sum
  | PZero _ _ rv rev => Ok (PZero (lo_out_dom L) (lo_out_cod L) rv rev)
  | PEval k e rev => if rev then Err TypeError else bind (lo_kern L k 0) (fun k' => Ok (PEval k' e false))
  | PLeaf _ _ _ _ _ | PParam _ _ _ _ _ | PLinOp _ _ | PStack _ _ => Err NotImplementedError
  end.
(** [SelectOutput] on a stacked cross-covariance ([crosscov/linfuncops.py] 85-87) *)
Definition select_pv (idx : index) (p : pvcc) : result pvcc :=
  match p with
  | PStack sh l =>
      if (length idx =? length sh) && forallb (fun '(i, d) => i <? d) (combine idx sh)
      then match nth_error l (ravel sh idx) with Some c => Ok c | None => Err IndexError end
      else Err IndexError
  | _ => Err NotImplementedError
  end.
End Cross.
Arguments kfun : clear implicits.
Arguments evalf : clear implicits.
Arguments pvcc : clear implicits.
Arguments lfun : clear implicits.
Arguments functl : clear implicits.
Arguments lop : clear implicits.
Arguments point : clear implicits.
