(** Model of random processes and linear transforms of them:
    [randprocs/_deterministic_process.py], [randprocs/_utils.py],
    [randprocs/_gaussian_process/_lintransforms.py], and linear functionals on covariance
    functions and cross-covariances for all functional objects of [FunctlModel]
    ([linfunctls/_arithmetic.py], [covfuncs/linfunctls/_registry.py],
    [crosscov/linfunctls/_arithmetic.py]).
    Not modelled: sampling, parametric and conditional processes (ParamModel.v,
    CondModel.v). *)
From Coq Require Import List Reals Bool Arith.
From Coquelicot Require Import Coquelicot.
From Verif Require Import Base NdArray NdData BlockModel CovModel CrossModel PolyClassModel FunExprModel DiffopModel LfoModel LfoSpec FunctlModel.
Import ListNotations.
Open Scope R_scope.

(** Processes: [DeterministicProcess] (_deterministic_process.py:8-16) and probnum's
    [GaussianProcess]. *)
Inductive randproc := RDet (f : fn) | RGP (m : fn) (k : kfun RF).
(** Random variables: probnum's [Constant] and [Normal]. *)
Inductive randvar := VConst (v : nd RF) | VNormal (mean : nd RF) (cov : @mat RF).

(** [input_shape], [output_shape] of processes (_deterministic_process.py:12-16) *)
Definition proc_in (p : randproc) : shape := match p with RDet f => in_shape f | RGP m _ => in_shape m end.
Definition proc_out (p : randproc) : shape := match p with RDet f => out_shape f | RGP m _ => out_shape m end.

(** probnum's [GaussianProcess.__init__]: shapes that do not fit raise ValueError. *)
Definition mk_gp (m : fn) (k : kfun RF) : result randproc :=
  if shape_eqb (in_shape m) (k_in k) && shape_eqb (out_shape m) (k_out0 k) && shape_eqb (out_shape m) (k_out1 k)
  then Ok (RGP m k) else Err ValueError.
(** probnum's [Normal.__init__]: at most two axes, and a square covariance of the size of
    the mean; else ValueError. *)
Definition mk_normal (mean : nd RF) (cov : @mat RF) : result randvar :=
  if (length (nshape mean) <=? 2)%nat && (nrows cov =? size (nshape mean))%nat && (ncols cov =? size (nshape mean))%nat
  then Ok (VNormal mean cov) else Err ValueError.

(** Objects given to [asrandproc]. *)
Inductive pyobj := PyProc (p : randproc) | PyFn (f : fn) | PyOther.
(** [asrandproc] (_utils.py:8-17) *)
Definition asrandproc (o : pyobj) : result randproc :=
  match o with PyProc p => Ok p | PyFn f => Ok (RDet f) | PyOther => Err TypeError end.
(** [DeterministicProcess.__call__] (_deterministic_process.py:18-19) *)
Definition det_call (f : fn) (X : nd RF) : result randvar := bind (fbatch f X) (fun v => Ok (VConst v)).
(** [DeterministicProcess._sample_at_input] (_deterministic_process.py:28-34): [sample] of
    probnum's [Constant] returns the support, tiled along [size]; [np.tile] repeats along an axis
    by taking indices modulo the length of that axis. *)
Definition tile (reps : shape) (v : nd RF) : nd RF :=
  Nd (reps ++ nshape v) (fun l => nat_ v (map (fun '(i, n) => i mod n)%nat (combine (skipn (length reps) l) (nshape v)))).
Definition det_sample (f : fn) (X : nd RF) (sz : shape) : result (nd RF) :=
  bind (det_call f X) (fun y =>
  match y with VConst v => Ok (match sz with [] => v | _ => tile sz v end) | _ => Err Unmodelled end).
(** [DeterministicProcess.mean], [as_fn] (_deterministic_process.py:21-26) *)
Definition det_mean (f : fn) : fn := f.

(** An operator as it acts on covariance functions and cross-covariances.  Simplified:
    what an operator expression does to a covariance function of class [KLeaf] is what it
    does to each of its sections (proved for the concrete classes: KernelModel.v,
    MaternModel.v, TensorModel.v); covariance functions are transformed in one step by
    scaled, sum and composite operators. *)
Definition lop_of (P : lfo) : lop RF :=
  @mklop RF (fst (o_in P)) (snd (o_in P)) (fst (o_out P)) (snd (o_out P)) (osem P).
(** What [operator(pv_crosscov)] returns: a cross-covariance; nothing
    ([Identity.__call__] has no return statement, linfuncops/_identity.py:20-22); or a
    [JaxLambdaFunction] around an object that jax cannot trace (linfuncops/diffops/
    _lindiffop.py:124-129).  Evaluating such a function raises a TypeError
    ([np.asarray] of a tracer, crosscov/_pv_crosscov.py:61). *)
Inductive opout := OutPv (p : pvcc RF) | OutNone | OutFun.
(** [scalar * value] and [value + value] (crosscov/_pv_crosscov.py:166-187,
    functions/_jax.py:41-58, functions/_jax_arithmetic.py:52-61) *)
Definition out_scale (s : R) (v : opout) : result opout :=
  match v with OutPv p => Ok (OutPv (p_rmul (s : RF) p)) | OutFun => Ok OutFun | OutNone => Err TypeError end.
Definition out_add (v w : opout) : result opout :=
  match v, w with
  | OutPv p, OutPv q => bind (p_add p q) (fun r => Ok (OutPv r))
  | OutFun, OutFun => Ok OutFun
  | OutFun, _ => Err AttributeError
  | _, _ => Err TypeError
  end.
(** The cross-covariances among the given values; the constructors of scaled and summed
    cross-covariances read attributes that other values do not have. *)
Definition out_pv (v : opout) : result (pvcc RF) := match v with OutPv p => Ok p | _ => Err AttributeError end.
(** The rules of [LinearFunctionOperator] (crosscov/linfuncops.py:18-82) for an operator
    object that is applied to covariance functions by [kern]; [post] is what the [__call__]
    of its class makes of the value [r] they give for [p]. *)
Fixpoint obj_pv (post : pvcc RF -> result opout -> result opout) (kern : kfun RF -> result (kfun RF)) (odom ocod : shape)
    (p : pvcc RF) : result opout :=
  post p
  match p with
  | PScaled c q => bind (bind (obj_pv post kern odom ocod q) out_pv) (fun q' => Ok (OutPv (PScaled c q')))
  | PSum l => bind (bind (mapR (obj_pv post kern odom ocod) l) (mapR out_pv)) (fun qs => bind (CrossModel.mk_sum qs) (fun q => Ok (OutPv q)))
  | PZero _ _ rv rev => Ok (OutPv (PZero odom ocod rv rev))
  | PEval k e rev => if rev then Err TypeError else bind (kern k) (fun k' => Ok (OutPv (PEval k' e false)))
  | PLeaf _ _ _ _ _ | PParam _ _ _ _ _ | PLinOp _ _ | PStack _ _ => Err NotImplementedError
  end.
(** [Identity.__call__] (linfuncops/_identity.py:20-32, covfuncs/linfuncops/_registry.py:68-74) *)
Definition id_out (dom cod : shape) (v : opout) : result opout :=
  match v with
  | OutPv p => obj_pv (fun _ r => bind r (fun _ => Ok OutNone)) (fun k => bind (validate dom cod k 0) (fun _ => Ok k)) dom cod p
  | OutNone => Err NotImplementedError
  | OutFun => Ok OutFun
  end.
(** Scaled, sum and composite operators (linfuncops/_arithmetic.py:37-39, 99-102, 127-133) *)
Fixpoint op_apply (diff : dop -> opout -> result opout) (P : lfo) (v : opout) : result opout :=
  match P with
  | OId dom cod => id_out dom cod v
  | ODiff d => diff d v
  | OScaled s Q => bind (op_apply diff Q v) (out_scale s)
  | OSum Ps =>
      match Ps with
      | [] => Err TypeError
      | Q :: Qs => fold_left (fun acc M => bind acc (fun a => bind (op_apply diff M v) (out_add a))) Qs (op_apply diff Q v)
      end
  | OComp Ps => fold_right (fun Q acc => bind acc (op_apply diff Q)) (Ok v) Ps
  end.
(** [__call__] of the differential operators (_partial_derivative.py:55-59, 117-119,
    _lindiffop.py:103-143): partial derivatives of order zero return their argument; if the
    rules fail with NotImplementedError, [alt] follows. *)
Definition diff_pv (alt : pvcc RF -> result opout) (d : dop) : pvcc RF -> result opout :=
  obj_pv (fun p r => if d_order0 d then Ok (OutPv p) else or_else r (alt p))
         (fun k => lo_kern (lop_of (ODiff d)) k 0) (d_dom d) [].
(** [_PartialDerivativeNoJax] (_partial_derivative.py:116-128) *)
Definition diff_nojax (d : dop) (v : opout) : result opout :=
  match v with
  | OutPv p => diff_pv (fun _ => Err NotImplementedError) d p
  | _ => if d_order0 d then Ok v else Err NotImplementedError
  end.
(** [_jax_fallback] (_partial_derivative.py:95-110, 127-128, _laplacian.py:57-68,
    _directional_derivative.py:45-55): [jax.hessian] checks that its argument can be called *)
Definition out_fallback (d : dop) (v : opout) : result opout :=
  match d, v with
  | DPartialNoJax _, _ => Err NotImplementedError
  | DLap _ _ _, OutNone => Err TypeError
  | _, _ => Ok OutFun
  end.
(** What follows the rules: the sum of partial derivatives without jax, then jax
    (_lindiffop.py:105-143) *)
Definition diff_alt (d : dop) (v : opout) : result opout :=
  or_else (if is_partial d then Err NotImplementedError else bind (to_sum_no_jax d) (fun L => op_apply diff_nojax L v))
          (out_fallback d v).
(** Simplified: what a differential operator makes of an [OutFun] is an [OutFun] again
    (for scaled functions Python raises RecursionError instead, C41). *)
Definition diff_out (d : dop) (v : opout) : result opout :=
  match v with
  | OutPv p => diff_pv (fun q => diff_alt d (OutPv q)) d p
  | _ => if d_order0 d then Ok v else diff_alt d v
  end.
(** [operator(pv_crosscov)] *)
Definition op_pv (P : lfo) (p : pvcc RF) : result opout := op_apply diff_out P (OutPv p).
(** [LebesgueIntegral] over an interval as a functional with its own rules
    (covfuncs/linfunctls/_registry.py:157-195, crosscov/linfunctls/integrals/_base.py); the
    values are exact integrals. *)
Definition int_lfun (a b : R) : lfun RF :=
  @mklfun RF [] [] [] (fun f _ => RInt (fun t => f (fun _ => t) []) a b).

(** [functional(k, argnum=...)] for covariance functions
    (covfuncs/linfunctls/_registry.py:43-61, 98-224; linfunctls/_arithmetic.py:37-39, 81-85).
    Integrals of multi-output covariance functions and weak forms are not modelled. *)
Fixpoint lk (L : lfn) (k : kfun RF) (argnum : nat) : result (pvcc RF) :=
  match L with
  | LEv e => f_kern (FEval e) k argnum
  | LInt a b cod => if shape_eqb cod [] then f_kern (FLeaf (int_lfun a b)) k argnum else Err Unmodelled
  | LWeak _ => Err Unmodelled
  | LAct dom cod out act => f_kern (FLeaf (@mklfun RF dom cod out act)) k argnum
  | LScaled s M => bind (lk M k argnum) (fun p => Ok (p_rmul (s : RF) p))
  | LSum Ls => bind (mapR (fun M => lk M k argnum) Ls) (reduce p_add)
  | LComp A M op =>
      bind (validate (fst (l_in L)) (snd (l_in L)) k argnum) (fun _ =>
      bind (match op with Some P => lo_kern (lop_of P) k argnum | None => Ok k end) (fun k' =>
      bind (lk M k' argnum) (fun p =>
      match A with Some A => mk_plinop A p | None => Ok p end)))
  end.
(** [functional(pv_crosscov)] (crosscov/linfunctls/_linfunctl.py:21-82, _dirac.py:11-18,
    _evaluation.py:11-18, _arithmetic.py:7-27; linfunctls/_arithmetic.py:37-39, 81-85).
    Functionals have no rule for [None]; applied to an [OutFun] they evaluate it
    (simplified: functionals with their own rules too). *)
Fixpoint lp (L : lfn) (p : pvcc RF) : result (covariance RF) :=
  match L with
  | LEv e => f_pv (FEval e) p
  | LInt a b cod => if shape_eqb cod [] then f_pv (FLeaf (int_lfun a b)) p else Err Unmodelled
  | LWeak _ => Err Unmodelled
  | LAct dom cod out act => f_pv (FLeaf (@mklfun RF dom cod out act)) p
  | LScaled s M => bind (lp M p) (crmul (Nd [] (fun _ => s : RF)))
  | LSum Ls => bind (mapR (fun M => lp M p) Ls) (reduce cadd)
  | LComp A M op =>
      bind (match op with Some P => op_pv P p | None => Ok (OutPv p) end) (fun v =>
      bind (match v with OutPv q => lp M q | OutNone => Err NotImplementedError | OutFun => Err TypeError end) (fun c =>
      match A with
      | Some A => cov_lin_axis A c (if p_rev p then length (cshape0 c) + length (cshape1 c) - 1 else length (cshape0 c) - 1)%nat
      | None => Ok c
      end))
  end.

(** Whether [functional(f)] is a Python float instead of a NumPy array or number:
    [scipy.integrate.quad(...)\[0\]] is (linfunctls/_integrals.py:47-51), so are sums of floats
    (_linfunctl.py:63-65, _arithmetic.py:81-85); products with a NumPy scalar are not
    (_arithmetic.py:37-39). *)
Fixpoint native (fuel : nat) (L : lfn) (f : fn) : bool :=
  match fuel with
  | O => false
  | S n =>
      match L with
      | LEv _ | LAct _ _ _ _ | LScaled _ _ => false
      | LWeak _ => match f with FSum gs => forallb (native n L) gs | _ => false end
      | LInt _ _ _ =>
          match f with
          | FConst _ _ _ | FZero _ _ | FPoly _ => false
          | FSum gs => forallb (native n L) gs
          | _ => true
          end
      | LSum Ls => forallb (fun M => native n M f) Ls
      | LComp (Some _) _ _ => false
      | LComp None M None => native n M f
      | LComp None M (Some P) => match call n P f with Ok g => native n M g | Err _ => false end
      end
  end.
(** A functional applied to a Gaussian process (_lintransforms.py:9-23) *)
Definition functl_gp (fuel : nat) (L : lfn) (m : fn) (k : kfun RF) : result randvar :=
  bind (lcall fuel L m) (fun mean =>
  bind (lk L k 1) (fun crosscov =>
  bind (lp L crosscov) (fun cov =>
  bind (clinop cov) (fun C =>
  if native fuel L m then Err AssertionError
  else bind (if shape_eqb (nshape mean) [] then reshape mean [1%nat] else Ok mean) (fun mean' =>
       mk_normal mean' C))))).
(** [functional(process)] (_lintransforms.py:9-23, _deterministic_process.py:37-41;
    linfunctls/_arithmetic.py:41-46, 87-89, 136-138).  A scaled functional is applied to a
    deterministic process as the scalar times the random variable (37-39). *)
Fixpoint functl_det (fuel : nat) (L : lfn) (f : fn) : result randvar :=
  match L with
  | LScaled s M => bind (functl_det fuel M f) (fun v =>
      match v with VConst a => Ok (VConst (nd_scale s a)) | VNormal _ _ => Err TypeError end)
  | _ => bind (lcall fuel L f) (fun a => Ok (VConst a))
  end.
Definition functl_proc (fuel : nat) (L : lfn) (p : randproc) : result randvar :=
  match p with RDet f => functl_det fuel L f | RGP m k => functl_gp fuel L m k end.

(** [operator(process)] (_lintransforms.py:26-31, _deterministic_process.py:44-48;
    linfuncops/_arithmetic.py:37-46, 97-105, 127-133): a composition applies its factors one
    after the other to the process; a scaled operator multiplies the transformed
    deterministic process by a number, which processes do not support (TypeError);
    [Identity] returns the process (linfuncops/_identity.py:34-42). *)
Definition base_op (fuel : nat) (P : lfo) (p : randproc) : result randproc :=
  match p with
  | RDet f => bind (call fuel P f) (fun g => Ok (RDet g))
  | RGP m k =>
      bind (call fuel P m) (fun m' =>
      bind (lo_kern (lop_of P) k 1) (fun k1 =>
      bind (lo_kern (lop_of P) k1 0) (fun k0 => mk_gp m' k0)))
  end.
Fixpoint op_proc (fuel : nat) (P : lfo) (p : randproc) : result randproc :=
  match P with
  | OScaled _ Q =>
      match p with
      | RDet _ => bind (op_proc fuel Q p) (fun _ => Err TypeError)
      | RGP _ _ => base_op fuel P p
      end
  | OComp Ps => fold_right (fun Q acc => bind acc (op_proc fuel Q)) (Ok p) Ps
  | OId dom cod =>
      if shape_eqb (proc_in p) dom then if shape_eqb (proc_out p) cod then Ok p else Err ValueError else Err ValueError
  | ODiff _ | OSum _ => base_op fuel P p
  end.
