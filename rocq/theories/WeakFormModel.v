(** Model of [weak_form] of the differential operators ([linfuncops/diffops/_laplacian.py],
    [_arithmetic.py], [_lindiffop.py], [_partial_derivative.py], [_derivative.py],
    [_directional_derivative.py]) and of the arithmetic of the functionals it returns
    ([linfunctls/_linfunctl.py], [_arithmetic.py]) on bases of hat functions.
    Simplified: operators without a weak form are not told apart. *)
From Coq Require Import List Reals Bool Arith.
From Verif Require Import Base FemModel.
Import ListNotations.
Open Scope R_scope.

(** Operator objects: [Laplacian] with its domain shape (_laplacian.py:77-99), other differential
    operators, [ScaledLinearDifferentialOperator], and function operators that are not differential
    operators (sums, compositions). *)
Inductive wop :=
| WLaplacian (sh : list nat)
| WOther (sh : list nat)
| WScaled (s : R) (L : wop)
| WFunOp.
(** [__rmul__] with a number (_lindiffop.py:150-158, diffops/_arithmetic.py:47-54) *)
Definition w_scale (s : R) (L : wop) : wop :=
  match L with WScaled t M => WScaled (s * t) M | WFunOp => WFunOp | _ => WScaled s L end.
(** [__neg__] (linfuncops/_linfuncop.py:107-108) *)
Definition w_neg (L : wop) : wop := w_scale (-1) L.
(** [__add__] (linfuncops/_linfuncop.py:110-115): a [SumLinearFunctionOperator] of operators on the same
    domain (linfuncops/_arithmetic.py:71-86) *)
Fixpoint w_dom (L : wop) : option (list nat) :=
  match L with WLaplacian sh | WOther sh => Some sh | WScaled _ L => w_dom L | WFunOp => None end.
Definition w_add (L M : wop) : result wop :=
  match w_dom L, w_dom M with
  | Some a, Some b => if list_eq_dec Nat.eq_dec a b then Ok WFunOp else Err AssertionError
  | _, _ => Err Unmodelled
  end.

(** Functional objects: the weak form with its test basis (weak_forms/_laplacian.py:12-25),
    [ScaledLinearFunctional] (linfunctls/_arithmetic.py:13-27), [SumLinearFunctional] (58-79). *)
Inductive wfn :=
| FWeak (test : basis)
| FScaledW (s : R) (f : wfn)
| FSumW (f g : wfn).
(** [WeakForm_Laplacian_UnivariateInterpolationBasis.__init__] (13-21) *)
Definition mk_weak (test : basis) : result wfn := if b_zero test then Ok (FWeak test) else Err AssertionError.
(** [output_shape]: the number of test functions *)
Fixpoint f_out (f : wfn) : nat := match f with FWeak t => b_len t | FScaledW _ f => f_out f | FSumW f _ => f_out f end.
(** [__rmul__] with a number (_linfunctl.py:93-101, linfunctls/_arithmetic.py:48-55), [__neg__] (75-76),
    [__add__] (80-88 with linfunctls/_arithmetic.py:59-79), [__sub__] (90-91) *)
Definition f_scale (s : R) (f : wfn) : wfn := match f with FScaledW t g => FScaledW (s * t) g | _ => FScaledW s f end.
Definition f_neg (f : wfn) : wfn := f_scale (-1) f.
Definition f_add (f g : wfn) : result wfn := if (f_out f =? f_out g)%nat then Ok (FSumW f g) else Err AssertionError.
Definition f_sub (f g : wfn) : result wfn := f_add f (f_neg g).

(** [weak_form(test_basis)]: _laplacian.py:91-99 (registered for the basis of hat functions, whatever
    the domain of the operator), diffops/_arithmetic.py:57-59; the other operators raise
    NotImplementedError (_laplacian.py:70-74, 120-124, _partial_derivative.py:61-65, 121-125, 146-150,
    _derivative.py:25-29, _directional_derivative.py:57-61, _lindiffop.py:160-164); function operators have no
    such method. *)
Fixpoint weak_form (L : wop) (test : basis) : result wfn :=
  match L with
  | WLaplacian _ => mk_weak test
  | WOther _ => Err NotImplementedError
  | WScaled s M => bind (weak_form M test) (fun f => Ok (f_scale s f))
  | WFunOp => Err AttributeError
  end.
(** [functional(trial_basis)]: weak_forms/_laplacian.py:27-52, linfunctls/_arithmetic.py:37-39, 81-85 *)
Fixpoint f_call (f : wfn) (trial : basis) : result (nat -> nat -> R) :=
  match f with
  | FWeak test => weak_laplacian test trial
  | FScaledW s g => bind (f_call g trial) (fun K => Ok (fun i j => s * K i j))
  | FSumW g h => bind (f_call g trial) (fun K => bind (f_call h trial) (fun M => Ok (fun i j => K i j + M i j)))
  end.
