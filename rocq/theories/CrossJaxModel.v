(** Model of the jax views of cross-covariances between a process and a random vector
    ([randprocs/crosscov]) and of the stacked prior predictive cross-covariances
    inside a conditioned process
    ([randprocs/_gaussian_process/_conditional.py] 112-175).

    [traced] says whether the argument is a tracer, that is, whether the call happens
    inside [jax.jit] or another jax transformation.  Functions of [jnp] accept tracers;
    [np.asarray] of a tracer raises jax's [TracerArrayConversionError], a TypeError. *)
From Coq Require Import List Arith Bool.
From Verif Require Import Base NdArray NdData BlockModel CovModel CrossModel.
Import ListNotations.

Section CrossJax.
Context {F : fops}.

(** [np.asarray(x)] *)
Definition np_asarray (traced : bool) (x : nd F) : result (nd F) := if traced then Err TypeError else Ok x.

(** [_evaluate_jax] of the evaluation functionals ([linfunctls/_dirac.py] 100-153, 234-283;
    [linfunctls/_evaluation.py] 102-157, 259-312): the same steps as [_evaluate], with
    [jnp.expand_dims]; the covariance function is called through its NumPy interface,
    which starts with [np.asarray] of the points. *)
Definition eval_jax (traced : bool) (k : kfun F) (e : evalf F) (rev : bool) (outsh xb : shape) (x : nd F) : result (nd F) :=
  let Xb := ev_batch e in
  if (if rev then shape_eqb (nshape (np_expand (ev_X e) (length Xb) (length xb))) (Xb ++ repeat 1 (length xb) ++ k_in k)
      else shape_eqb (nshape (np_expand x (length xb) (length Xb))) (xb ++ repeat 1 (length Xb) ++ k_in k)
           && shape_eqb (nshape (ev_X e)) (Xb ++ k_in k))
  then bind (np_asarray traced x) (eval_array k e rev outsh xb)
  else Err AssertionError.

(** [StackedProcessVectorCrossCovariance._evaluate_jax] ([_stack.py] 77-102): the arrays
    returned by [res.at\[...\].set(eval_at_idx)] are dropped, so that every slot keeps
    its zeros. *)
Definition stack_jax (sh rv : shape) (rev : bool) (evals : list (nd F)) : result (nd F) :=
  stack_array sh rv rev (map (fun a => Nd (nshape a) (fun _ => f0)) evals).

(** [jax] ([_pv_crosscov.py] 92-117) and the [_evaluate_jax] methods ([_arithmetic.py] 40-41,
    78-79, 124-125; [_parametric.py] 43-44; [_zero.py] 20-30).  [PLeaf] stands for a class
    whose two methods compute the same. *)
Fixpoint p_jax (traced : bool) (p : pvcc F) (x : nd F) : result (nd F) :=
  bind (batch_shape (p_in p) x) (fun b =>
  bind (match p with
        | PLeaf _ outsh rv rev v =>
            Ok (Nd (p_layout rev b outsh rv) (fun l =>
                  if rev then v (pt x (firstn (length b) (skipn (length rv) l))) (skipn (length b) (skipn (length rv) l)) (firstn (length rv) l)
                  else v (pt x (firstn (length b) l)) (firstn (length outsh) (skipn (length b) l)) (skipn (length outsh) (skipn (length b) l))))
        | PZero _ outsh rv rev => Ok (Nd (p_layout rev b outsh rv) (fun _ => f0))
        | PEval k e rev => eval_jax traced k e rev (p_out p) b x
        | PParam _ _ _ _ _ => Err NotImplementedError
        | PScaled c q => bind (p_jax traced q x) (fun a => Ok (nd_map (fmul c) a))
        | PSum l => bind (mapR (fun q => p_jax traced q x) l) (fun ls =>
            reduce nd_add (match ls with [] => [] | a :: r => nd_map (fadd f0) a :: r end))
        | PLinOp _ _ => Err NotImplementedError
        | PStack sh l => bind (mapR (fun q => p_jax traced q x) l) (stack_jax sh (p_rv p) (p_rev p))
        end) (p_finish p b)).

(** ** The cross-covariances of a conditioned process *)
(** [PriorPredictiveCrossCovariance.__init__] ([_conditional.py] 113-131) *)
Definition mk_kLas (l : list (pvcc F)) : result (list (pvcc F)) :=
  match l with
  | [] => Err IndexError
  | q :: _ =>
      if forallb (fun p => shape_eqb (p_in p) (p_in q) && shape_eqb (p_out p) (p_out q) && negb (p_rev p)) l
      then Ok l else Err AssertionError
  end.
(** [append] (133-138) *)
Definition kLas_append (l : list (pvcc F)) (p : pvcc F) : result (list (pvcc F)) := mk_kLas (l ++ [p]).
(** The attributes passed to [super().__init__] (126-131) *)
Definition kLas_in (l : list (pvcc F)) : shape := match l with q :: _ => p_in q | [] => [] end.
Definition kLas_out (l : list (pvcc F)) : shape := match l with q :: _ => p_out q | [] => [] end.
Definition kLas_size (l : list (pvcc F)) : nat := fold_right Nat.add 0 (map (fun p => size (p_rv p)) l).

(** [np.reshape(a, pre + (-1,), "C")]: the last length is deduced, which is a ValueError
    if the others have product zero. *)
Definition reshape_last (a : nd F) (pre : shape) : result (nd F) :=
  if size pre =? 0 then Err ValueError else reshape a (pre ++ [size (nshape a) / size pre]).
(** [np.concatenate(arrays, axis=-1)] of two arrays and of a non-empty sequence; the
    arrays must agree in all other axes. *)
Definition cat_last2 (a b : nd F) : result (nd F) :=
  let pre := removelast (nshape a) in
  if shape_eqb pre (removelast (nshape b)) then
    let n := last (nshape a) 0 in
    Ok (Nd (pre ++ [n + last (nshape b) 0]) (fun l =>
          let i := firstn (length pre) l in
          let k := nth (length pre) l 0 in
          if k <? n then nat_ a (i ++ [k]) else nat_ b (i ++ [k - n])))
  else Err ValueError.
Fixpoint cat_last_from (a : nd F) (l : list (nd F)) : result (nd F) :=
  match l with [] => Ok a | b :: l' => bind (cat_last_from b l') (cat_last2 a) end.
Definition cat_last (l : list (nd F)) : result (nd F) :=
  match l with [] => Err ValueError | a :: l' => cat_last_from a l' end.

(** [_evaluate] (140-153) behind [__call__] ([crosscov/_pv_crosscov.py] 60-86) *)
Definition kLas_rows (l : list (pvcc F)) (x : nd F) (b : shape) : result (nd F) :=
  bind (mapR (fun p => bind (p_call p x) (fun a => reshape_last a (b ++ kLas_out l))) l) cat_last.
Definition kLas_finish (l : list (pvcc F)) (b : shape) (a : nd F) : result (nd F) :=
  if shape_eqb (nshape a) (b ++ kLas_out l ++ [kLas_size l]) then Ok a else Err AssertionError.
Definition kLas_call (l : list (pvcc F)) (x : nd F) : result (nd F) :=
  bind (batch_shape (kLas_in l) x) (fun b => bind (kLas_rows l x b) (kLas_finish l b)).
(** [_evaluate_jax] (155-168) behind [jax] ([crosscov/_pv_crosscov.py] 92-117): the entries
    are called through their NumPy interface. *)
Definition kLas_jax (traced : bool) (l : list (pvcc F)) (x : nd F) : result (nd F) :=
  bind (batch_shape (kLas_in l) x) (fun b =>
  bind (bind (np_asarray traced x) (fun y => kLas_rows l y b)) (kLas_finish l b)).
(** [_evaluate_linop] (170-171) behind [evaluate_linop] ([crosscov/_pv_crosscov.py] 126-161) *)
Definition kLas_linop (l : list (pvcc F)) (x : nd F) : result (mat F) :=
  bind (batch_shape (kLas_in l) x) (fun _ => bind (mapR (fun p => p_linop p x) l) (fun ms => block_linop [ms])).

(** [Mean._evaluate] (193-197) for a vector of weights; [prior] is the prior mean.
    [m_x + kLas_x @ w] on arrays of the same shape. *)
Definition rows_times (a : nd F) (w : list F) : result (nd F) :=
  let pre := removelast (nshape a) in
  if last (nshape a) 0 =? length w then
    Ok (Nd pre (fun l => fsum (map (fun k => fmul (nat_ a (l ++ [k])) (nth k w f0)) (seq 0 (length w)))))
  else Err ValueError.
Definition mean_call (prior : nd F -> result (nd F)) (l : list (pvcc F)) (w : list F) (x : nd F) : result (nd F) :=
  bind (prior x) (fun m => bind (kLas_call l x) (fun a => bind (rows_times a w) (nd_add m))).
(** [Mean._evaluate_jax] (199-204), which [jax.jit] calls with a tracer; [prior] is the jax
    view of the prior mean. *)
Definition mean_jax (prior : nd F -> result (nd F)) (l : list (pvcc F)) (w : list F) (x : nd F) : result (nd F) :=
  bind (prior x) (fun m => bind (kLas_jax true l x) (fun a => bind (rows_times a w) (nd_add m))).
(** [CovarianceFunction._evaluate_jax] (233-243) up to the first cross-covariance; [prior]
    is the jax view of the prior covariance function.  The rest is never reached. *)
Definition cov_jax (prior : nd F -> option (nd F) -> result (nd F)) (l : list (pvcc F)) (x0 : nd F) (x1 : option (nd F)) : result (nd F) :=
  bind (prior x0 x1) (fun k_xx => bind (kLas_jax true l x0) (fun _ => Err Unmodelled)).
End CrossJax.
