(** Model of [LebesgueIntegral] over boxes ([linfunctls/_integrals.py], [functions/_linfunctls.py]) on functions
    and on covariance functions ([randprocs/covfuncs/linfunctls/_registry.py:157-190],
    [randprocs/crosscov/linfunctls/integrals/_covfunc_lebesgue.py]).
    Not modelled: piecewise functions. *)
From Coq Require Import List Reals Bool Arith.
From Verif Require Import Base NdArray NdData CrossModel PolyClassModel FunExprModel LfoModel FunctlModel.
From Verif Require DomainModel.
Import ListNotations.
Open Scope R_scope.

(** [LebesgueIntegral.__init__] (_integrals.py:14-27): the domain; the input shapes are its shape and the
    codomain shape, which is also the output shape. *)
Definition mk_integral (arg : DomainModel.domain_like) : result DomainModel.domain :=
  bind (DomainModel.asdomain arg) (fun d =>
  match d with DomainModel.Interval _ _ _ | DomainModel.Box _ _ => Ok d | _ => Err TypeError end).

(** [np.asarray] of a factor of a box: an interval is a sequence of its two bounds (_interval.py:31-45), a
    point its coordinate (_point.py:33-34). *)
Definition factor_array (d : DomainModel.domain) : nd RF :=
  match d with
  | DomainModel.Interval _ l u => Nd [2%nat] (fun i => match i with [0%nat] => l | _ => u end)
  | DomainModel.Point p => Nd (DomainModel.a_shape p) (fun _ => nth 0 (DomainModel.a_data p) 0)
  | _ => Nd [] (fun _ => 0)
  end.
(** Difference of two arrays with broadcasting *)
Definition nd_diff (a b : nd RF) : result (nd RF) :=
  bind (broadcast_shapes (nshape a) (nshape b)) (fun s =>
    Ok (Nd s (fun k => (nat_ a (operand_index (nshape a) k) - nat_ b (operand_index (nshape b) k))%R : RF))).
(** The rule for polynomials (functions/_linfunctls.py:9-13) when [self.domain] is a box: [self.domain\[1\]] and
    [self.domain\[0\]] are its first two factors. *)
Definition poly_box (fs : list DomainModel.domain) (p : pypoly) : result (nd RF) :=
  match fs with
  | d0 :: d1 :: _ =>
      let F := nd_map (py_eval (py_integrate p) : RF -> RF) in nd_diff (F (factor_array d1)) (F (factor_array d0))
  | _ => Err IndexError
  end.
(** [scipy.integrate.nquad(f, ranges)\[0\]] (_integrals.py:52-56).  The bounds of a collapsed factor, a point, cannot
    be unpacked.  The coordinates are passed as separate arguments, but a function object takes one argument.
    Simplified: exact integrals, as in [quad]. *)
Definition nquad (fs : list DomainModel.domain) (f : fn) : result (nd RF) :=
  if existsb (fun d => match d with DomainModel.Interval _ _ _ => false | _ => true end) fs then Err TypeError
  else match fs with
       | [] => Err IndexError
       | [DomainModel.Interval _ l u] => quad l u f
       | _ => Err TypeError
       end.
(** [LebesgueIntegral.__call__] (_integrals.py:33-62, functions/_linfunctls.py:9-13) of the integral over the box with
    bounds [bs]; [call] is the application to summands and scaled functions (_linfunctl.py:59-73). *)
Definition box_step (call : fn -> result (nd RF)) (dt : DomainModel.dtype) (bs : list (R * R)) (cod : shape) (f : fn) : result (nd RF) :=
  match f with
  | FConst _ o v => bind (DomainModel.volume (DomainModel.Box dt bs)) (fun w => Ok (Nd o (fun k => (v k * w)%R : RF)))
  | FZero _ o => bind (DomainModel.volume (DomainModel.Box dt bs)) (fun w => Ok (Nd o (fun _ => (0 * w)%R : RF)))
  | FPoly p => poly_box (DomainModel.box_factors dt bs) p
  | _ => or_else (lbase_call (fun _ => call) (LWeak 0) f)
           (if negb (shape_eqb cod []) then Err NotImplementedError else nquad (DomainModel.box_factors dt bs) f)
  end.
(** With recursion depth bounded by [fuel] *)
Fixpoint box_call (fuel : nat) (dt : DomainModel.dtype) (bs : list (R * R)) (cod : shape) (f : fn) : result (nd RF) :=
  match fuel with O => Err RecursionError | S n => box_step (box_call n dt bs cod) dt bs cod f end.

(** The integral of a covariance function with inputs of shape [insh] and outputs of shape [outsh] over a domain of
    shape [dom] (_registry.py:157-173, covfuncs/_utils.py:6-38, _covfunc_lebesgue.py:26-40): no error means that the
    cross-covariance by quadrature is returned.  Half-integer Matern covariance functions have a rule of their own on
    inputs of shape [()] only (_registry.py:176-190). *)
Definition cov_integral (dom cod insh outsh : shape) (argnum : nat) : result unit :=
  if negb ((argnum =? 0) || (argnum =? 1))%nat then Err ValueError
  else if negb (shape_eqb insh dom) then Err ValueError
  else if negb (shape_eqb outsh cod) then Err ValueError
  else if negb (shape_eqb cod []) then Err NotImplementedError
  else Ok tt.
(** Its evaluation at an array of points of shape [xsh] (_covfunc_lebesgue.py:46-52; the shape is checked by the
    [__call__] of _pv_crosscov.py:60-72): [np.vectorize] of a call of [quad] with the first two factors of
    the box as bounds; neither intervals nor points can be compared or converted to a number.  No error is reached
    without entries, where [np.vectorize] raises. *)
Definition cov_box_eval (bs : list (R * R)) (xsh : shape) : result (nd RF) :=
  match rev xsh with
  | d :: _ => if (d =? length bs)%nat then
                if (size xsh =? 0)%nat then Err ValueError
                else if (length bs <? 2)%nat then Err IndexError else Err TypeError
              else Err ValueError
  | [] => Err ValueError
  end.
