(** Model of the ExpQuad and Matérn covariance functions and of differential
    operators applied to one of their arguments:
    [randprocs/covfuncs/_expquad.py], [_matern.py], [_jax.py], [_jax_arithmetic.py],
    [_utils.py], [covfuncs/linfuncops/_registry.py] and
    [covfuncs/linfuncops/diffops/{_expquad,_matern,_registry}.py].
    One pair of points; the numpy and the jax evaluation perform the same arithmetic.
    Arrays of points and the keops path are in BatchModel. *)
From Coq Require Import List Reals Bool Arith ZArith QArith Qcanon.
From Verif Require Import Base NdArray PolyModel PolyClassModel FunExprModel DiffopModel LfoModel.
Import ListNotations.
Open Scope R_scope.

(** [probnum]'s [ExpQuad] and [Matern] (outside the repository): the input shape and
    the lengthscales, broadcast to the input shape.  [nu = p + 1/2], or any other
    smoothness with its radial profile left abstract. *)
Record expquad := ExpQuad { eq_shape : shape; eq_len : array }.
Inductive smoothness := HalfInt (p : nat) | OtherNu (nu : R) (profile : R -> R).
Record matern := Matern { mt_shape : shape; mt_len : array; mt_nu : smoothness }.

(** ** Matérn polynomials *)
(** [covfuncs.Matern.half_integer_coefficients(p)] (probnum):
    [p!/(2p)! (2p-k)!/(k! (p-k)!) 2^k] *)
Definition qnat (n : nat) : Qc := Q2Qc (inject_Z (Z.of_nat n)).
Definition half_integer_coefficients (p : nat) : list Qc :=
  map (fun k => (qnat (fact p * fact (2 * p - k) * 2 ^ k) / qnat (fact (2 * p) * fact k * fact (p - k)))%Qc)
      (seq 0 (p + 1)).
(** _matern.py (diffops) 613-615 and 618-639 *)
Fixpoint matern_poly (p n : nat) : pypoly :=
  match n with
  | O => make_rational (half_integer_coefficients p)
  | S n' => let poly := matern_poly p n' in py_sub (py_diff poly) poly
  end.

(** ** Covariance functions *)
(** The polynomials computed by the constructors are stored in the objects.
    [CJax] is a [JaxLambdaCovarianceFunction] (_jax.py:150-185), [CNotImpl] stands for
    the object [NotImplemented] returned in place of a covariance function. *)
Inductive cov :=
| CExp (e : expquad)
| CExpDir (e : expquad) (dir : array) (reverse : bool)
| CExpDirDir (e : expquad) (dir0 dir1 : array)
| CExpLap (e : expquad) (w : array) (reverse : bool)
| CExpLapLap (e : expquad) (w0 w1 : array)
| CExpDirLap (e : expquad) (dir w : array) (reverse : bool)
| CMat (m : matern)
| CMatDir (m : matern) (dir : array) (reverse : bool) (poly : pypoly)
| CMatDirDir (m : matern) (dir0 dir1 : array) (neg_poly_deriv poly_diff : pypoly)
| CUMatDirDir (m : matern) (dir0 dir1 : array) (poly : pypoly)
| CUMatLap (m : matern) (w : array) (reverse : bool) (poly : pypoly)
| CUMatLapLap (m : matern) (w0 w1 : array) (poly : pypoly)
| CUMatDirLap (m : matern) (dir w : array) (reverse : bool) (poly : pypoly)
| CScaled (s : R) (c : cov)
| CSum (cs : list cov)
| CJax (sh : shape) (f : array -> array -> R)
| CNotImpl.

(** [input_shape] *)
Fixpoint c_shape (c : cov) : shape :=
  match c with
  | CExp e | CExpDir e _ _ | CExpDirDir e _ _ | CExpLap e _ _ | CExpLapLap e _ _ | CExpDirLap e _ _ _ => eq_shape e
  | CMat m | CMatDir m _ _ _ | CMatDirDir m _ _ _ _ | CUMatDirDir m _ _ _ | CUMatLap m _ _ _
  | CUMatLapLap m _ _ _ | CUMatDirLap m _ _ _ _ => mt_shape m
  | CScaled _ c => c_shape c
  | CSum cs => match cs with c :: _ => c_shape c | [] => [] end
  | CJax sh _ => sh
  | CNotImpl => []
  end.

(** ** Evaluation *)
Definition vdiff (x0 x1 : array) : array := fun i => x0 i - x1 i.
(** [_batched_sum] (_jax.py:12-16, 64-67) and [_batched_euclidean_norm_sq] (18-22, 69-72) *)
Definition bsum (sh : shape) (a : array) : R := rsum (map a (all_indices sh)).
Definition bnorm_sq (sh : shape) (a : array) : R := bsum sh (fun i => a i ^ 2).
Definition bnorm (sh : shape) (a : array) : R := sqrt (bnorm_sq sh a).
(** [_scale_factors] of probnum's ExpQuad: [1 / (sqrt(2) lengthscales)] *)
Definition eq_scale (e : expquad) : array := fun i => 1 / (sqrt 2 * eq_len e i).
(** [ExpQuad._evaluate_jax] (_expquad.py:14-26) and [_squared_euclidean_distances_jax]
    (_jax.py:104-126) *)
Definition expquad_eval (e : expquad) (x0 x1 : array) : R :=
  exp (- bnorm_sq (eq_shape e) (fun i => vdiff x0 x1 i * eq_scale e i)).

(** [ExpQuad_Identity_DirectionalDerivative] (_expquad.py (diffops) 39-57) *)
Definition expdir_rescaled (e : expquad) (dir : array) (reverse : bool) : array :=
  fun i => if reverse then - (dir i / eq_len e i ^ 2) else dir i / eq_len e i ^ 2.
Definition expdir_eval (e : expquad) (dir : array) (reverse : bool) (x0 x1 : array) : R :=
  bsum (eq_shape e) (fun i => expdir_rescaled e dir reverse i * vdiff x0 x1 i)
  * exp (- (1/2) * bnorm_sq (eq_shape e) (fun i => vdiff x0 x1 i / eq_len e i)).
(** [ExpQuad_DirectionalDerivative_DirectionalDerivative] (94-122) *)
Definition expdirdir_inprod (e : expquad) (dir0 dir1 : array) : R :=
  bsum (eq_shape e) (fun i => dir0 i * (dir1 i / eq_len e i ^ 2)).
Definition expdirdir_eval (e : expquad) (dir0 dir1 : array) (x0 x1 : array) : R :=
  (expdirdir_inprod e dir0 dir1
   - bsum (eq_shape e) (fun i => dir0 i / eq_len e i ^ 2 * vdiff x0 x1 i)
     * bsum (eq_shape e) (fun i => dir1 i / eq_len e i ^ 2 * vdiff x0 x1 i))
  * exp (- (1/2) * bnorm_sq (eq_shape e) (fun i => vdiff x0 x1 i / eq_len e i)).
(** [ExpQuad_Identity_WeightedLaplacian] (173-201): [_weighted_inv_lengthscales_sq],
    [_scale_factors_sq], [_trace_term], [_evaluate] *)
Definition explap_winv (e : expquad) (w : array) : array := fun i => 2 * w i * eq_scale e i ^ 2.
Definition explap_sfsq (e : expquad) (w : array) : array := fun i => 2 * explap_winv e w i * eq_scale e i ^ 2.
Definition explap_trace (e : expquad) (w : array) : R := bsum (eq_shape e) (fun i => 2 * w i * eq_scale e i ^ 2).
Definition explap_eval (e : expquad) (w : array) (x0 x1 : array) : R :=
  (bsum (eq_shape e) (fun i => explap_sfsq e w i * vdiff x0 x1 i * vdiff x0 x1 i) - explap_trace e w)
  * exp (- bnorm_sq (eq_shape e) (fun i => eq_scale e i * vdiff x0 x1 i)).
(** [ExpQuad_WeightedLaplacian_WeightedLaplacian] (266-312) *)
Definition explaplap_trace (e : expquad) (w0 w1 : array) : R :=
  bsum (eq_shape e) (fun i => explap_winv e w0 i * explap_winv e w1 i).
Definition explaplap_eval (e : expquad) (w0 w1 : array) (x0 x1 : array) : R :=
  ((bsum (eq_shape e) (fun i => explap_sfsq e w0 i * vdiff x0 x1 i ^ 2) - explap_trace e w0)
   * (bsum (eq_shape e) (fun i => explap_sfsq e w1 i * vdiff x0 x1 i ^ 2) - explap_trace e w1)
   - 4 * bsum (eq_shape e) (fun i => explap_sfsq e w0 i * explap_winv e w1 i * vdiff x0 x1 i ^ 2)
   + 2 * explaplap_trace e w0 w1)
  * exp (- bnorm_sq (eq_shape e) (fun i => eq_scale e i * vdiff x0 x1 i)).
(** [ExpQuad_DirectionalDerivative_WeightedLaplacian] (379-410) *)
Definition expdirlap_rescaled (e : expquad) (dir : array) : array := fun i => dir i * 2 * eq_scale e i ^ 2.
Definition expdirlap_eval (e : expquad) (dir w : array) (reverse : bool) (x0 x1 : array) : R :=
  let proj := bsum (eq_shape e) (fun i => expdirlap_rescaled e dir i * vdiff x0 x1 i) in
  let projw := bsum (eq_shape e) (fun i => expdirlap_rescaled e dir i * explap_winv e w i * vdiff x0 x1 i) in
  let k := 2 * projw * expquad_eval e x0 x1 - proj * explap_eval e w x0 x1 in
  if reverse then - k else k.

(** [_scale_factors] of probnum's Matern: [sqrt(2 nu) / lengthscales] *)
Definition nu_val (s : smoothness) : R := match s with HalfInt p => INR p + 1/2 | OtherNu nu _ => nu end.
Definition mt_scale (m : matern) : array := fun i => sqrt (2 * nu_val (mt_nu m)) / mt_len m i.
Definition mt_diffs (m : matern) (x0 x1 : array) : array := fun i => vdiff x0 x1 i * mt_scale m i.
(** [_euclidean_distances_jax] (_jax.py:128-147) and its numpy counterpart *)
Definition mt_dist (m : matern) (x0 x1 : array) : R := bnorm (mt_shape m) (mt_diffs m x0 x1).
(** [Matern._evaluate_jax] (_matern.py:15-46): Horner's scheme on the coefficients *)
Definition matern_profile (s : smoothness) (r : R) : R :=
  match s with
  | HalfInt p => py_eval (make_rational (half_integer_coefficients p)) r * exp (- r)
  | OtherNu _ f => f r
  end.
Definition matern_eval (m : matern) (x0 x1 : array) : R := matern_profile (mt_nu m) (mt_dist m x0 x1).
(** [HalfIntegerMatern_Identity_DirectionalDerivative] (_matern.py (diffops) 54-86);
    the in-place update of the scale factors (56-60) is modelled in EffectModel. *)
Definition matdir_scaled (m : matern) (dir : array) (reverse : bool) : array :=
  fun i => let s := mt_scale m i * dir i in if reverse then s else s * -1.
Definition matdir_eval (m : matern) (dir : array) (reverse : bool) (poly : pypoly) (x0 x1 : array) : R :=
  py_eval poly (mt_dist m x0 x1) * exp (- mt_dist m x0 x1)
  * bsum (mt_shape m) (fun i => matdir_scaled m dir reverse i * mt_diffs m x0 x1 i).
(** [HalfIntegerMatern_DirectionalDerivative_DirectionalDerivative] (173-203) *)
Definition matdirdir_inprod (m : matern) (dir0 dir1 : array) : R :=
  bsum (mt_shape m) (fun i => mt_scale m i * dir0 i * (mt_scale m i * dir1 i)).
Definition matdirdir_eval (m : matern) (dir0 dir1 : array) (npd pd : pypoly) (x0 x1 : array) : R :=
  (matdirdir_inprod m dir0 dir1 * py_eval npd (mt_dist m x0 x1)
   - bsum (mt_shape m) (fun i => mt_scale m i * dir0 i * mt_diffs m x0 x1 i)
     * bsum (mt_shape m) (fun i => mt_scale m i * dir1 i * mt_diffs m x0 x1 i)
     * py_eval pd (mt_dist m x0 x1))
  * exp (- mt_dist m x0 x1).
(** [np.squeeze(a)\[()\]] of an array with one entry *)
Definition squeeze (sh : shape) (a : array) : R := match all_indices sh with i :: _ => a i | [] => 0 end.
(** [UnivariateHalfIntegerMatern_DirectionalDerivative_DirectionalDerivative] (294-318) *)
Definition umatdirdir_prod (m : matern) (dir0 dir1 : array) : R :=
  squeeze (mt_shape m) (fun i => dir0 i * dir1 i * mt_scale m i ^ 2).
Definition umatdirdir_eval (m : matern) (dir0 dir1 : array) (poly : pypoly) (x0 x1 : array) : R :=
  umatdirdir_prod m dir0 dir1 * py_eval poly (mt_dist m x0 x1) * exp (- mt_dist m x0 x1).
(** [UnivariateHalfIntegerMatern_Identity_WeightedLaplacian] (397-410) *)
Definition umatlap_factor (m : matern) (w : array) : R :=
  squeeze (mt_shape m) (fun i => w i * mt_scale m i * mt_scale m i).
Definition umatlap_eval (m : matern) (w : array) (poly : pypoly) (x0 x1 : array) : R :=
  umatlap_factor m w * exp (- mt_dist m x0 x1) * py_eval poly (mt_dist m x0 x1).
(** [UnivariateHalfIntegerMatern_WeightedLaplacian_WeightedLaplacian] (470-483) *)
Definition umatlaplap_factor (m : matern) (w0 w1 : array) : R :=
  squeeze (mt_shape m) (fun i => w0 i * w1 i * mt_scale m i ^ 4).
Definition umatlaplap_eval (m : matern) (w0 w1 : array) (poly : pypoly) (x0 x1 : array) : R :=
  umatlaplap_factor m w0 w1 * exp (- mt_dist m x0 x1) * py_eval poly (mt_dist m x0 x1).
(** [UnivariateHalfIntegerMatern_DirectionalDerivative_WeightedLaplacian] (548-571) *)
Definition umatdirlap_scaled (m : matern) (dir w : array) (reverse : bool) : array :=
  fun i => let s := w i * mt_scale m i ^ 3 * dir i in if reverse then s * -1 else s.
Definition umatdirlap_eval (m : matern) (dir w : array) (reverse : bool) (poly : pypoly) (x0 x1 : array) : R :=
  exp (- mt_dist m x0 x1) * py_eval poly (mt_dist m x0 x1)
  * bsum (mt_shape m) (fun i => umatdirlap_scaled m dir w reverse i * mt_diffs m x0 x1 i).

(** [k(x0, x1)] *)
Fixpoint ceval (c : cov) (x0 x1 : array) : R :=
  match c with
  | CExp e => expquad_eval e x0 x1
  | CExpDir e d r => expdir_eval e d r x0 x1
  | CExpDirDir e d0 d1 => expdirdir_eval e d0 d1 x0 x1
  | CExpLap e w _ => explap_eval e w x0 x1
  | CExpLapLap e w0 w1 => explaplap_eval e w0 w1 x0 x1
  | CExpDirLap e d w r => expdirlap_eval e d w r x0 x1
  | CMat m => matern_eval m x0 x1
  | CMatDir m d r q => matdir_eval m d r q x0 x1
  | CMatDirDir m d0 d1 a b => matdirdir_eval m d0 d1 a b x0 x1
  | CUMatDirDir m d0 d1 q => umatdirdir_eval m d0 d1 q x0 x1
  | CUMatLap m w _ q => umatlap_eval m w q x0 x1
  | CUMatLapLap m w0 w1 q => umatlaplap_eval m w0 w1 q x0 x1
  | CUMatDirLap m d w r q => umatdirlap_eval m d w r q x0 x1
  | CScaled s c => s * ceval c x0 x1
  | CSum cs => rsum (map (fun c => ceval c x0 x1) cs)
  | CJax _ f => f x0 x1
  | CNotImpl => 0
  end.
(** [k(x0, None)], for points of floating type: the branches [if x1 is None]
    (_expquad.py:16-20 and _jax.py:115-119, 139-143, 176-177; _expquad.py (diffops)
    46-50, 107-112, 188-193, 281-291, 391-395; _matern.py (diffops) 65-69, 186-191,
    301-306, 404-410, 477-483, 559-563).  [x0] is only used by [CJax]. *)
Definition coeff0 (p : pypoly) : R := nth 0 (float_coeffs p) 0.
Fixpoint cnone (c : cov) (x0 : array) : R :=
  match c with
  | CExp _ => 1
  | CExpDir _ _ _ => 0
  | CExpDirDir e d0 d1 => expdirdir_inprod e d0 d1
  | CExpLap e w _ => - explap_trace e w
  | CExpLapLap e w0 w1 => explap_trace e w0 * explap_trace e w1 + 2 * explaplap_trace e w0 w1
  | CExpDirLap _ _ _ _ => 0
  | CMat m => matern_profile (mt_nu m) 0
  | CMatDir _ _ _ _ => 0
  | CMatDirDir m d0 d1 a _ => matdirdir_inprod m d0 d1 * coeff0 a
  | CUMatDirDir m d0 d1 q => umatdirdir_prod m d0 d1 * coeff0 q
  | CUMatLap m w _ q => umatlap_factor m w * exp (- 0) * py_eval q 0
  | CUMatLapLap m w0 w1 q => umatlaplap_factor m w0 w1 * exp (- 0) * py_eval q 0
  | CUMatDirLap _ _ _ _ _ => 0
  | CScaled s c => s * cnone c x0
  | CSum cs => rsum (map (fun c => cnone c x0) cs)
  | CJax _ f => f x0 x0
  | CNotImpl => 0
  end.

(** ** Arithmetic *)
Definition is_cov (c : cov) : bool := match c with CNotImpl => false | _ => true end.
(** [scalar * k] (_jax.py:88-96, _jax_arithmetic.py:17-21, 34-41) *)
Definition cov_scale (s : R) (c : cov) : result cov :=
  match c with
  | CNotImpl => Err TypeError
  | CScaled t c' => Ok (CScaled (s * t) c')
  | _ => Ok (CScaled s c)
  end.
(** [JaxSumCovarianceFunction] of the summands (_jax_arithmetic.py:50-56; the check of the
    input shapes and the flattening of nested sums happen in probnum, the flattening
    is not modelled) *)
Definition mk_covsum (cs : list cov) : result cov :=
  if negb (forallb is_cov cs) then Err TypeError
  else match cs with
       | [] => Err IndexError
       | c :: _ => if forallb (fun c' => shape_eqb (c_shape c') (c_shape c)) cs then Ok (CSum cs) else Err ValueError
       end.
(** [k0 + k1] (_jax.py:79-86) *)
Definition cov_add (c0 c1 : cov) : result cov := mk_covsum [c0; c1].

(** ** Constructors of the derivatives *)
Definition univariate (m : matern) : bool := (size (mt_shape m) =? 1)%nat.
(** _matern.py (diffops) 18-40 *)
Definition mk_matdir (m : matern) (dir : array) (reverse : bool) : result cov :=
  match mt_nu m with
  | HalfInt p => bind (py_floordiv (matern_poly p 1) 1) (fun q => Ok (CMatDir m dir reverse q))
  | OtherNu _ _ => Err ValueError
  end.
(** 141-167 *)
Definition mk_matdirdir (m : matern) (dir0 dir1 : array) : result cov :=
  match mt_nu m with
  | HalfInt p =>
      bind (py_floordiv (py_neg (matern_poly p 1)) 1) (fun npd =>
      bind (py_floordiv (py_add (matern_poly p 2) npd) 2) (fun pd =>
      Ok (CMatDirDir m dir0 dir1 npd pd)))
  | OtherNu _ _ => Err ValueError
  end.
(** 270-292 *)
Definition mk_umatdirdir (m : matern) (dir0 dir1 : array) : result cov :=
  if negb (univariate m) then Err ValueError else
  match mt_nu m with
  | HalfInt p => Ok (CUMatDirDir m dir0 dir1 (py_neg (matern_poly p 2)))
  | OtherNu _ _ => Err ValueError
  end.
(** 361-383 *)
Definition mk_umatlap (m : matern) (w : array) (reverse : bool) : result cov :=
  if negb (univariate m) then Err ValueError else
  match mt_nu m with
  | HalfInt p => Ok (CUMatLap m w reverse (matern_poly p 2))
  | OtherNu _ _ => Err ValueError
  end.
(** 442-464 *)
Definition mk_umatlaplap (m : matern) (w0 w1 : array) : result cov :=
  if negb (univariate m) then Err ValueError else
  match mt_nu m with
  | HalfInt p => Ok (CUMatLapLap m w0 w1 (matern_poly p 4))
  | OtherNu _ _ => Err ValueError
  end.
(** 515-542 *)
Definition mk_umatdirlap (m : matern) (dir w : array) (reverse : bool) : result cov :=
  if negb (univariate m) then Err ValueError else
  match mt_nu m with
  | HalfInt p => bind (py_floordiv (matern_poly p 3) 1) (fun q => Ok (CUMatDirLap m dir w reverse q))
  | OtherNu _ _ => Err ValueError
  end.

(** ** Dispatch *)
(** [validate_covfunc_transformation] (_utils.py:6-39); every covariance function here
    has scalar outputs. *)
Definition validate (dom cod : shape) (c : cov) (argnum : nat) : result unit :=
  if negb ((argnum =? 0) || (argnum =? 1))%nat then Err ValueError
  else if negb (shape_eqb (c_shape c) dom) then Err ValueError
  else if negb (shape_eqb [] cod) then Err ValueError
  else Ok tt.
(** [PartialDerivative.__call__] is registered for these classes
    (_registry.py (diffops) 95-134). *)
Definition pd_registered (c : cov) : bool :=
  match c with CExp _ | CExpDir _ _ _ | CExpLap _ _ _ | CMat _ | CMatDir _ _ _ _ | CUMatLap _ _ _ _ => true | _ => false end.
(** [_jax_fallback] with [argnum]: [LfoModel.jax_fallback] as an operation on
    functions, and the [JaxLambdaCovarianceFunction] built from it
    (_registry.py (diffops) 22-28, _jax.py:153-173: inputs of at most one axis). *)
Definition jax_op (d : dop) : result ((array -> R) -> array -> R) :=
  match d with
  | DPartial a => bind (factorize_first_order a) (fun fs => Ok (fun f => fold_left (fun df e => jvp df (mi_dir e)) fs f))
  | DPartialNoJax _ => Err NotImplementedError
  | DLap _ sh w =>
      Ok (fun f x => rsum (map (fun i => w i * jvp (jvp f (basis_vec i)) (basis_vec i) x) (all_indices sh)))
  | DDir sh v => Ok (fun f => jvp f v)
  end.
Definition cov_jax (d : dop) (c : cov) (argnum : nat) : result cov :=
  bind (jax_op d) (fun T =>
    if (length (d_dom d) <=? 1)%nat then
      Ok (CJax (d_dom d) (fun x0 x1 => if (argnum =? 0)%nat then T (fun x => ceval c x x1) x0
                                       else T (fun x => ceval c x0 x) x1))
    else Err Unmodelled).

Section Call.
Variable call : lfo -> cov -> nat -> result cov.
(** Handlers of [LinearFunctionOperator.__call__] (linfuncops/_registry.py:14-31 (covfuncs)) *)
Definition cov_base_call (L : lfo) (c : cov) (argnum : nat) : result cov :=
  match c with
  | CScaled s c' => bind (validate (fst (o_in L)) (snd (o_in L)) c argnum) (fun _ =>
                    bind (call L c' argnum) (fun r => cov_scale s r))
  | CSum cs => bind (validate (fst (o_in L)) (snd (o_in L)) c argnum) (fun _ =>
               bind (mapM (fun c' => call L c' argnum) cs) mk_covsum)
  | _ => Err NotImplementedError
  end.
(** [_call_no_jax] (_lindiffop.py:131-143) *)
Definition cov_call_no_jax (d : dop) (c : cov) (argnum : nat) : result cov :=
  or_else (cov_base_call (ODiff d) c argnum)
    (if is_partial d then Err NotImplementedError else bind (to_sum_no_jax d) (fun L => call L c argnum)).
(** [LinearDifferentialOperator.__call__] for [JaxCovarianceFunctionMixin]
    (_registry.py (diffops) 15-28) *)
Definition cov_lindiffop_call (d : dop) (c : cov) (argnum : nat) : result cov :=
  if negb (is_cov c) then Err Unmodelled else
  bind (validate (d_dom d) [] c argnum) (fun _ =>
  or_else (cov_call_no_jax d c argnum) (cov_jax d c argnum)).
(** [_partial_derivative_fallback] (80-92) *)
Definition partial_derivative_fallback (a : mi) (c : cov) (argnum : nat) : result cov :=
  bind (validate (mi_shape a) [] c argnum) (fun _ =>
  if (mi_order a =? 0)%nat then Ok c
  else if (size (mi_shape a) =? 1)%nat && (mi_order a =? 1)%nat then call (ODiff (DDir [] (fun _ => 1))) c argnum
  else if (size (mi_shape a) =? 1)%nat && (mi_order a =? 2)%nat then call (ODiff (DLap false [] (fun _ => 1))) c argnum
  else Ok CNotImpl).
(** [PartialDerivative.__call__] (_partial_derivative.py:55-59, 117-119, _registry.py 95-134) *)
Definition cov_partial_call (d : dop) (a : mi) (c : cov) (argnum : nat) : result cov :=
  if pd_registered c then partial_derivative_fallback a c argnum
  else if (mi_order a =? 0)%nat then Ok c
  else cov_lindiffop_call d c argnum.
Definition is0 (argnum : nat) : bool := (argnum =? 0)%nat.
Definition is1 (argnum : nat) : bool := (argnum =? 1)%nat.
(** [DirectionalDerivative.__call__] (_directional_derivative.py:41-43,
    _registry.py (diffops) 142-262).  The call of [__init__] instead of [__call__] in line 153 raises
    TypeError (unexpected keyword argument). *)
Definition cov_dir_call (sh : shape) (v : array) (c : cov) (argnum : nat) : result cov :=
  let sup := cov_lindiffop_call (DDir sh v) c argnum in
  match c with
  | CMat m => bind (validate sh [] c argnum) (fun _ =>
      match mt_nu m with HalfInt _ => mk_matdir m v (is0 argnum) | OtherNu _ _ => Err TypeError end)
  | CMatDir m dir reverse _ => bind (validate sh [] c argnum) (fun _ =>
      if is0 argnum && negb reverse then (if univariate m then mk_umatdirdir else mk_matdirdir) m v dir
      else if is1 argnum && reverse then (if univariate m then mk_umatdirdir else mk_matdirdir) m dir v
      else sup)
  | CUMatLap m w reverse _ => bind (validate sh [] c argnum) (fun _ =>
      if (is0 argnum && negb reverse) || (is1 argnum && reverse) then mk_umatdirlap m v w (is1 argnum) else sup)
  | CExp e => bind (validate sh [] c argnum) (fun _ => Ok (CExpDir e v (is0 argnum)))
  | CExpDir e dir reverse => bind (validate sh [] c argnum) (fun _ =>
      if is0 argnum && negb reverse then Ok (CExpDirDir e v dir)
      else if is1 argnum && reverse then Ok (CExpDirDir e dir v)
      else sup)
  | CExpLap e w reverse => bind (validate sh [] c argnum) (fun _ =>
      if (is0 argnum && negb reverse) || (is1 argnum && reverse) then Ok (CExpDirLap e v w (is1 argnum)) else sup)
  | _ => sup
  end.
(** [WeightedLaplacian.__call__] (_laplacian.py:53-55, 81-83, 116-118,
    _registry.py (diffops) 270-370).  Line 352 reads the attribute [matern] of a derivative of ExpQuad. *)
Definition cov_lap_call (b : bool) (sh : shape) (w : array) (c : cov) (argnum : nat) : result cov :=
  let sup := cov_lindiffop_call (DLap b sh w) c argnum in
  match c with
  | CMat m => bind (validate sh [] c argnum) (fun _ =>
      if univariate m then match mt_nu m with HalfInt _ => mk_umatlap m w (is0 argnum) | OtherNu _ _ => sup end
      else sup)
  | CUMatLap m w' reverse _ => bind (validate sh [] c argnum) (fun _ =>
      if negb (univariate m) then Err AssertionError
      else if is0 argnum && negb reverse then mk_umatlaplap m w w'
      else if is1 argnum && reverse then mk_umatlaplap m w' w
      else sup)
  | CMatDir m dir reverse _ => bind (validate sh [] c argnum) (fun _ =>
      if negb (univariate m) then Err AssertionError
      else if (is0 argnum && negb reverse) || (is1 argnum && reverse) then mk_umatdirlap m dir w (is0 argnum)
      else sup)
  | CExp e => bind (validate sh [] c argnum) (fun _ => Ok (CExpLap e w (is0 argnum)))
  | CExpLap e w' reverse => bind (validate sh [] c argnum) (fun _ =>
      if is0 argnum && negb reverse then Ok (CExpLapLap e w w')
      else if is1 argnum && reverse then Err AttributeError
      else sup)
  | CExpDir e dir reverse => bind (validate sh [] c argnum) (fun _ =>
      if (is0 argnum && negb reverse) || (is1 argnum && reverse) then Ok (CExpDirLap e dir w (is0 argnum)) else sup)
  | _ => sup
  end.
Definition cov_diffop_call (d : dop) (c : cov) (argnum : nat) : result cov :=
  match d with
  | DPartial a | DPartialNoJax a => cov_partial_call d a c argnum
  | DLap b sh w => cov_lap_call b sh w c argnum
  | DDir sh v => cov_dir_call sh v c argnum
  end.
(** linfuncops/_arithmetic.py:98-102 *)
Definition cov_sum_call (Ls : list lfo) (c : cov) (argnum : nat) : result cov :=
  match Ls with
  | [] => Err TypeError
  | L :: Ls' => fold_left (fun acc M => bind acc (fun a => bind (call M c argnum) (fun b => cov_add a b))) Ls'
                  (call L c argnum)
  end.
(** linfuncops/_arithmetic.py:126-132 *)
Definition cov_comp_call (Ls : list lfo) (c : cov) (argnum : nat) : result cov :=
  fold_left (fun acc M => bind acc (fun h => call M h argnum)) (rev Ls) (Ok c).
(** linfuncops/_registry.py (covfuncs) 68-74 *)
Definition cov_id_call (dom cod : shape) (c : cov) (argnum : nat) : result cov :=
  bind (validate dom cod c argnum) (fun _ => Ok c).
End Call.
(** [L(k, argnum=argnum)] with recursion depth bounded by [fuel]. *)
Fixpoint ccall (fuel : nat) (L : lfo) (c : cov) (argnum : nat) : result cov :=
  match fuel with
  | O => Err RecursionError
  | S n =>
      match L with
      | OId dom cod => cov_id_call dom cod c argnum
      | ODiff d => cov_diffop_call (ccall n) d c argnum
      | OScaled s M => bind (ccall n M c argnum) (fun r => cov_scale s r)
      | OSum Ls => cov_sum_call (ccall n) Ls c argnum
      | OComp Ls => cov_comp_call (ccall n) Ls c argnum
      end
  end.
