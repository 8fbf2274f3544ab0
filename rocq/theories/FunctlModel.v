(** Model of linear functionals on functions: [linfunctls/_linfunctl.py],
    [_arithmetic.py], the [__call__] methods of [_dirac.py], [_evaluation.py],
    [_integrals.py] (with [functions/_linfunctls.py]) on functions, and
    [LinearFunctionOperator.to_linfunctl].
    Values are arrays of reals ([NdData.nd]).  Not modelled: integrals over boxes,
    piecewise functions (PiecewiseModel.v), scalings of random processes. *)
From Coq Require Import List Reals Bool Arith.
From Coquelicot Require Import Coquelicot.
From Verif Require Import Base NdArray NdData BlockModel CovModel CrossModel PolyClassModel FunExprModel DiffopModel LfoModel.
Import ListNotations.
Open Scope R_scope.

(** Functional objects.  [LEv]: [DiracFunctional] and [_EvaluationFunctional].  [LInt]:
    [LebesgueIntegral] over an interval (_integrals.py:13-27).  [LWeak n]:
    [WeakForm_Laplacian_UnivariateInterpolationBasis] (weak_forms/_laplacian.py:12-25) with
    [n] test functions, which has no handler for functions of its own.  [LAct]: any other
    functional with a handler for all functions, given by the values it computes from the
    values of the function (the L2 projections, FemModel.v).  [LScaled], [LSum], [LComp]:
    _arithmetic.py:13-27, 58-79, 92-122; operators on arrays are the matrices they
    represent. *)
Inductive lfn :=
| LEv (e : @evalf RF)
| LInt (a b : R) (cod : shape)
| LWeak (n : nat)
| LAct (dom cod out : shape) (act : (array -> array) -> array)
| LScaled (s : R) (L : lfn)
| LSum (Ls : list lfn)
| LComp (A : option (@mat RF)) (L : lfn) (op : option lfo).

(** [input_shapes], [output_shape] (_linfunctl.py:14-50) as set by the constructors:
    _dirac.py:22-25, _evaluation.py:32-35, _integrals.py:24-27, weak_forms/_laplacian.py:18-21,
    _arithmetic.py:19-22, 76-79, 111-122. *)
Fixpoint l_in (L : lfn) : shape * shape :=
  match L with
  | LEv e => (ev_dom e, ev_cod e)
  | LInt _ _ cod => ([], cod)
  | LWeak _ => ([], [])
  | LAct dom cod _ _ => (dom, cod)
  | LScaled _ L => l_in L
  | LSum Ls => match Ls with L :: _ => l_in L | [] => ([], []) end
  | LComp _ L op => match op with Some M => o_in M | None => l_in L end
  end.
Fixpoint l_out (L : lfn) : shape :=
  match L with
  | LEv e => ev_out e
  | LInt _ _ cod => cod
  | LWeak n => [n]
  | LAct _ _ out _ => out
  | LScaled _ L => l_out L
  | LSum Ls => match Ls with L :: _ => l_out L | [] => [] end
  | LComp A L _ => match A with Some A => [nrows A] | None => l_out L end
  end.

(** [SumLinearFunctional.__init__] (_arithmetic.py:59-79) *)
Definition mk_lsum (Ls : list lfn) : result lfn :=
  match Ls with
  | [] => Err IndexError
  | L :: _ =>
      if forallb (fun M => shape_eqb (fst (l_in M)) (fst (l_in L))) Ls &&
         forallb (fun M => shape_eqb (snd (l_in M)) (snd (l_in L))) Ls &&
         forallb (fun M => shape_eqb (l_out M) (l_out L)) Ls
      then Ok (LSum Ls) else Err AssertionError
  end.
(** [CompositeLinearFunctional.__init__] (_arithmetic.py:93-122); matrices have two axes. *)
Definition mk_lcomp (A : option (@mat RF)) (L : lfn) (op : option lfo) : result lfn :=
  if negb (match op with Some M => shapes_eqb (o_out M) (l_in L) | None => true end) then Err AssertionError
  else if negb (match A with Some A => (length (l_out L) =? 1)%nat && shape_eqb (l_out L) [ncols A] | None => true end)
  then Err AssertionError
  else Ok (LComp A L op).
(** [__rmul__] (_linfunctl.py:93-101, _arithmetic.py:48-55) with a number *)
Definition l_scale (s : R) (L : lfn) : lfn :=
  match L with LScaled t M => LScaled (s * t) M | _ => LScaled s L end.
(** [__neg__], [__add__], [__sub__] (_linfunctl.py:75-91) *)
Definition l_neg (L : lfn) : lfn := l_scale (-1) L.
Definition l_add (L M : lfn) : result lfn := mk_lsum [L; M].
Definition l_sub (L M : lfn) : result lfn := l_add L (l_neg M).
(** [functional @ operator] (_linfunctl.py:103-115, _arithmetic.py:154-164) *)
Definition l_matmul (L : lfn) (M : lfo) : result lfn :=
  match L with
  | LComp A L' None => mk_lcomp A L' (Some M)
  | LComp A L' (Some M') => bind (o_matmul M' M) (fun P => mk_lcomp A L' (Some P))
  | _ => mk_lcomp None L (Some M)
  end.
(** [matrix @ functional] (_linfunctl.py:117-129, _arithmetic.py:166-174) *)
Definition l_rmatmul (A : @mat RF) (L : lfn) : result lfn :=
  match L with
  | LComp None L' op => mk_lcomp (Some A) L' op
  | LComp (Some B) L' op => bind (mat_mul A B) (fun P => mk_lcomp (Some P) L' op)
  | _ => mk_lcomp (Some A) L None
  end.
(** [LinearFunctionOperator.to_linfunctl] (linfuncops/_linfuncop.py:93-105) *)
Definition to_linfunctl (M : lfo) (X : nd RF) : result lfn :=
  bind (mk_evalf false (fst (o_out M)) (snd (o_out M)) X) (fun e => l_matmul (LEv e) M).

(** [f(X)] on an array of points; probnum's [Function.__call__] raises ValueError unless
    the points have the input shape. *)
Definition fbatch (f : fn) (X : nd RF) : result (nd RF) :=
  bind (batch_shape (in_shape f) X) (fun b =>
    Ok (Nd (b ++ out_shape f) (fun l => feval f (pt X (firstn (length b) l)) (skipn (length b) l)))).
(** Python's [sum], which starts from the integer zero. *)
Definition py_sum (vs : list (nd RF)) : result (nd RF) :=
  match vs with
  | [] => Ok (Nd [] (fun _ => f0))
  | v :: vs' => reduceM nd_add (nd_map (fadd f0) v) vs'
  end.
Definition nd_scale (s : R) (v : nd RF) : nd RF := nd_map (fmul (s : RF)) v.

Section LCall.
Variable lcall : lfn -> fn -> result (nd RF).
(** Handlers of the base class (_linfunctl.py:59-73) for the functional [L]; the handler
    of scaled functions (67-69) applies the functional to the scaled function itself. *)
Definition lbase_call (L : lfn) (f : fn) : result (nd RF) :=
  match f with
  | FSum gs => bind (LfoModel.mapM (lcall L) gs) py_sum
  | FScaled c _ => bind (lcall L f) (fun v => Ok (nd_scale c v))
  | FZero _ _ => Ok (Nd [] (fun _ => f0))
  | _ => Err NotImplementedError
  end.
(** [scipy.integrate.quad(f, a, b)\[0\]] (_integrals.py:47-51).  Simplified: the exact
    integral; values that are not numbers are not modelled. *)
Definition quad (a b : R) (f : fn) : result (nd RF) :=
  if negb (shape_eqb (in_shape f) []) then Err ValueError
  else if negb (shape_eqb (out_shape f) []) then Err Unmodelled
  else Ok (Nd [] (fun _ => RInt (fun t => feval f (fun _ => t) []) a b)).
(** [LebesgueIntegral.__call__] (_integrals.py:33-62, functions/_linfunctls.py:9-13) *)
Definition int_call (a b : R) (cod : shape) (f : fn) : result (nd RF) :=
  match f with
  | FConst _ o v => Ok (Nd o (fun k => v k * (b - a) : RF))
  | FZero _ o => Ok (Nd o (fun _ => 0 * (b - a) : RF))
  | FPoly p => Ok (Nd [] (fun _ => poly_lebesgue a b p))
  | _ => or_else (lbase_call (LInt a b cod) f)
           (if negb (shape_eqb cod []) then Err NotImplementedError else quad a b f)
  end.
End LCall.
(** [functional(f)] with recursion depth bounded by the first argument; beyond it Python
    raises RecursionError.  _dirac.py:43-45, _evaluation.py:53-64, _arithmetic.py:37-39, 81-85,
    140-152. *)
Fixpoint lcall (fuel : nat) (L : lfn) (f : fn) : result (nd RF) :=
  match fuel with
  | O => Err RecursionError
  | S n =>
      match L with
      | LEv e => ev_fun e (out_shape f) (fbatch f)
      | LInt a b cod => int_call (lcall n) a b cod f
      | LWeak _ => lbase_call (lcall n) L f
      | LAct _ _ out act => Ok (Nd out (act (feval f)))
      | LScaled s M => bind (lcall n M f) (fun v => Ok (nd_scale s v))
      | LSum Ls => bind (LfoModel.mapM (fun M => lcall n M f) Ls) (reduce nd_add)
      | LComp A M op =>
          bind (match op with Some P => call n P f | None => Ok f end) (fun g =>
          bind (lcall n M g) (fun v =>
          match A with Some A => lin_axis A v (length (nshape v) - 1) | None => Ok v end))
      end
  end.
