(** Model of functions and covariance functions given by a callable
    ([functions/_jax.py] 62-89 and [randprocs/covfuncs/_jax.py] 150-185), and of the shapes of
    covariance functions and cross-covariances to which operators and functionals have been
    applied ([randprocs/covfuncs/linfuncops/_abstract.py],
    [randprocs/crosscov/linfunctls/_base.py]).

    Arrays are [NdData.nd]; dtypes are not modelled.  The callables are those JAX can trace:
    whether they raise, and the shape of what they return, depends on the shapes of their
    arguments only. *)
From Coq Require Import List Arith ZArith Bool.
From Verif Require Import Base NdArray NdData BlockModel CovModel CrossModel ShapedModel.
Import ListNotations.
Local Open Scope nat_scope.

Section Lambda.
Context {F : fops}.

(** ** Callables *)
(** For the shapes of the arguments: an exception, or the shape of the value and its entries
    as functions of those of the arguments. *)
Definition traced1 := shape -> result (shape * (point F -> index -> F)).
Definition traced2 := shape -> shape -> result (shape * (point F -> point F -> index -> F)).
(** [fn(x)], [fn(x0, x1)] *)
Definition apply1 (fn : traced1) (x : nd F) : result (nd F) :=
  bind (fn (nshape x)) (fun '(o, v) => Ok (Nd o (v (nat_ x)))).
Definition apply2 (fn : traced2) (x0 x1 : nd F) : result (nd F) :=
  bind (fn (nshape x0) (nshape x1)) (fun '(o, v) => Ok (Nd o (v (nat_ x0) (nat_ x1)))).

(** [jnp.vectorize(fn, signature=...)(x)] with [ki] axes in the signature of the argument and
    [ko] in that of the result, all with different names: the last [ki] axes of the argument
    are passed to the callable, which has to return an array with [ko] axes. *)
Definition vectorize1 (ki ko : nat) (fn : traced1) (x : nd F) : result (nd F) :=
  let d := length (nshape x) in
  if d <? ki then Err ValueError else
  let batch := firstn (d - ki) (nshape x) in
  bind (fn (skipn (d - ki) (nshape x))) (fun '(o, v) =>
  if length o =? ko
  then Ok (Nd (batch ++ o) (fun l => v (pt x (firstn (length batch) l)) (skipn (length batch) l)))
  else Err ValueError).
(** The same for two arguments whose axes have the same names in the signature; the batches
    are broadcast. *)
Definition vectorize2 (ki ko : nat) (fn : traced2) (x0 x1 : nd F) : result (nd F) :=
  let d0 := length (nshape x0) in
  let d1 := length (nshape x1) in
  if (d0 <? ki) || (d1 <? ki) then Err ValueError else
  let c0 := skipn (d0 - ki) (nshape x0) in
  let c1 := skipn (d1 - ki) (nshape x1) in
  if negb (shape_eqb c0 c1) then Err ValueError else
  let b0 := firstn (d0 - ki) (nshape x0) in
  let b1 := firstn (d1 - ki) (nshape x1) in
  bind (broadcast_shapes b0 b1) (fun b =>
  bind (fn c0 c1) (fun '(o, v) =>
  if length o =? ko
  then Ok (Nd (b ++ o) (fun l =>
         let i := firstn (length b) l in
         v (pt x0 (operand_index b0 i)) (pt x1 (operand_index b1 i)) (skipn (length b) l)))
  else Err ValueError)).

(** ** [JaxLambdaFunction] (functions/_jax.py:62-89) *)
(** A [ShapeLike]: an integer or a tuple *)
Inductive shapelike := SInt (n : nat) | STup (s : shape).
(** [len(...)] (functions/_jax.py:72, 74) of a [ShapeLike]; integers have none. *)
Definition shape_len (s : shapelike) : result nat :=
  match s with SInt _ => Err TypeError | STup l => Ok (length l) end.
(** probnum's [as_shape] *)
Definition as_shape (s : shapelike) : shape := match s with SInt n => [n] | STup l => l end.
(** [__init__] (63-83), [_evaluate] (85-86), [_evaluate_jax] (88-89); [vec] is [vectorize]. *)
Definition mk_lambda (fn : traced1) (insh outsh : shapelike) (vec : bool) : result (func F) :=
  bind (shape_len insh) (fun ki => bind (shape_len outsh) (fun ko =>
  let ev := if vec then vectorize1 ki ko fn else apply1 fn in
  Ok (mkfn (as_shape insh) (as_shape outsh) ev (Some ev)))).

(** ** [JaxLambdaCovarianceFunction] (covfuncs/_jax.py:150-185) *)
(** Simplified: both arguments have the same shape, given as a tuple. *)
Record lamcov := LamCov { lc_in : shape; lc_out0 : shape; lc_out1 : shape; lc_vec : bool; lc_fn : traced2 }.
(** Numbers of axes in the signature (159-167): one at most for each shape *)
Definition one_axis (s : shape) : nat := if shape_eqb s [] then 0 else 1.
Definition lc_core (k : lamcov) : nat := one_axis (lc_in k).
Definition lc_core_out (k : lamcov) : nat := one_axis (lc_out0 k) + one_axis (lc_out1 k).
(** [_evaluate] (175-179), [_evaluate_jax] (181-185) *)
Definition lc_eval (k : lamcov) (x0 : nd F) (x1 : option (nd F)) : result (nd F) :=
  let y := second x0 x1 in
  if lc_vec k then vectorize2 (lc_core k) (lc_core_out k) (lc_fn k) x0 y else apply2 (lc_fn k) x0 y.
(** probnum's [CovarianceFunction.__call__] and [JaxCovarianceFunctionMixin.jax] (36-56) *)
Definition lc_call (k : lamcov) (x0 : nd F) (x1 : option (nd F)) : result (nd F) :=
  bind (check_shapes (lc_in k) x0 x1) (fun b =>
  bind (lc_eval k x0 x1) (fun a =>
  if shape_eqb (nshape a) (b ++ lc_out0 k ++ lc_out1 k) then Ok a else Err AssertionError)).

End Lambda.
Arguments traced1 : clear implicits.
Arguments traced2 : clear implicits.
Arguments lamcov : clear implicits.

(** ** Shapes under operators and functionals *)
(** [input_shape_0], [input_shape_1], [output_shape_0], [output_shape_1] of a covariance
    function *)
Record covshape := CovShape { cs_in0 : shape; cs_in1 : shape; cs_out0 : shape; cs_out1 : shape }.
(** [input_domain_shape], [input_codomain_shape], [output_domain_shape],
    [output_codomain_shape] of an operator *)
Record opshape := OpShape { os_dom : shape; os_cod : shape; os_odom : shape; os_ocod : shape }.
(** [input_domain_shape], [input_codomain_shape], [output_shape] of a functional *)
Record lfshape := LfShape { ls_dom : shape; ls_cod : shape; ls_out : shape }.
(** Shapes of a cross-covariance: [randproc_input_shape], [randproc_output_shape],
    [randvar_shape], [reverse] *)
Record pvshape := PvShape { ps_in : shape; ps_out : shape; ps_rv : shape; ps_reverse : bool }.

(** [CrossCovarianceFunction_Identity_LinearFunctionOperator.__init__] (_abstract.py:9-47) *)
Definition mk_identity_lfo (k : covshape) (L : opshape) (reverse : bool) : result covshape :=
  if negb (shape_eqb (os_dom L) (if reverse then cs_in0 k else cs_in1 k)) then Err ValueError
  else if negb (shape_eqb (os_cod L) (if reverse then cs_out0 k else cs_out1 k)) then Err ValueError
  else Ok (if reverse
           then CovShape (os_odom L) (cs_in1 k) (os_ocod L) (cs_out1 k)
           else CovShape (cs_in0 k) (os_odom L) (cs_out0 k) (os_ocod L)).
(** [argnum] (_abstract.py:62-63) *)
Definition identity_lfo_argnum (reverse : bool) : nat := if reverse then 0 else 1.
(** [CovarianceFunction_LinearFunctionOperator.__init__] (_abstract.py:67-94) *)
Definition mk_lfo_lfo (k : covshape) (L0 L1 : opshape) : result covshape :=
  if negb (shape_eqb (os_dom L0) (cs_in0 k)) then Err ValueError
  else if negb (shape_eqb (os_cod L0) (cs_out0 k)) then Err ValueError
  else if negb (shape_eqb (os_dom L1) (cs_in1 k)) then Err ValueError
  else if negb (shape_eqb (os_cod L1) (cs_out1 k)) then Err ValueError
  else Ok (CovShape (os_odom L0) (os_odom L1) (os_ocod L0) (os_ocod L1)).
(** [LinearFunctionalProcessVectorCrossCovariance.__init__] (_base.py:9-60) *)
Definition mk_functional_pv (k : covshape) (L : lfshape) (reverse : bool) : result pvshape :=
  if negb (shape_eqb (ls_dom L) (if reverse then cs_in0 k else cs_in1 k)) then Err ValueError
  else if negb (shape_eqb (ls_cod L) (if reverse then cs_out0 k else cs_out1 k)) then Err ValueError
  else Ok (PvShape (if reverse then cs_in1 k else cs_in0 k)
                   (if reverse then cs_out1 k else cs_out0 k) (ls_out L) reverse).
