(** Model of the L2 projection onto the hat basis applied to one or both arguments of a
    covariance function: [randprocs/covfuncs/linfunctls/_registry.py] (general, projections)
    and [randprocs/crosscov/linfunctls/projections.py].
    One evaluation point; the axes of the random variable and of the points are exchanged
    by [reverse] (66-67, 169-170), which is invisible for a single point.
    Galerkin covariance functions are modelled in [GalerkinModel.v]; stacked and zero kernels
    are not modelled here. *)
From Coq Require Import List Reals Bool Arith ZArith.
From Coquelicot Require Import Coquelicot.
From Verif Require Import Base NdArray FemModel FunExprModel KernelModel IntegralModel.
Import ListNotations.
Open Scope R_scope.

(** [L2Projection_UnivariateLinearInterpolationBasis] (linfunctls/projections/l2/_fem.py:13-36) *)
Record proj := Proj { pr_basis : basis; pr_normalized : bool }.

(** projections.py:137-143 ([_aux_int] with [_antideriv]) *)
Definition antideriv (x t0 alpha t : R) : R :=
  - ((t - x + 2 / alpha) * (t - t0 + 1 / alpha) + 1 / alpha ^ 2) * exp (- alpha * (t - x)).
Definition aux_int (x a b t0 alpha : R) : R := antideriv x t0 alpha b - antideriv x t0 alpha a.
(** 149 *)
Definition m32_alpha (l : R) : R := sqrt 3 / l.
(** 151-154 *)
Definition int_im1_i (b : basis) (l x : R) (i : nat) : R :=
  let alpha := m32_alpha l in
  (aux_int x (Rmax (x_im1 b i) x) (Rmax (x_i b i) x) (x_im1 b i) alpha
   + aux_int x (Rmin (x_im1 b i) x) (Rmin (x_i b i) x) (x_im1 b i) (- alpha)) / (x_i b i - x_im1 b i).
(** 156-159 *)
Definition int_i_ip1 (b : basis) (l x : R) (i : nat) : R :=
  let alpha := m32_alpha l in
  - (aux_int x (Rmax (x_i b i) x) (Rmax (x_ip1 b i) x) (x_ip1 b i) alpha
     + aux_int x (Rmin (x_i b i) x) (Rmin (x_ip1 b i) x) (x_ip1 b i) (- alpha)) / (x_ip1 b i - x_i b i).
(** 161-165 *)
Definition m32_rhs (b : basis) (l x : R) (i : nat) : R :=
  let res := int_im1_i b l x i + int_i_ip1 b l x i in
  if b_zero b then res
  else if (i =? b_len b - 1)%nat then int_im1_i b l x i
  else if (i =? 0)%nat then int_i_ip1 b l x i
  else res.

(** Cross-covariances: [Matern32_L2Projection_UnivariateLinearInterpolationBasis] (131-172),
    [CovarianceFunction_L2Projection_UnivariateLinearInterpolationBasis] (18-72), scaled and
    summed ones. *)
Inductive pcross :=
| PM32 (m : matern) (p : proj) (reverse : bool)
| PQuad (k : cov) (p : proj) (reverse : bool)
| PScaled (s : R) (x : pcross)
| PSum (x y : pcross).

(** [reverse] *)
Fixpoint p_reverse (x : pcross) : bool :=
  match x with PM32 _ _ r | PQuad _ _ r => r | PScaled _ x => p_reverse x | PSum x _ => p_reverse x end.
(** [__add__] with the assertion of [SumProcessVectorCrossCovariance] (_arithmetic.py
    (crosscov) 53-63); the summands here have the same shapes. *)
Definition p_add (x y : pcross) : result pcross :=
  if Bool.eqb (p_reverse y) (p_reverse x) then Ok (PSum x y) else Err AssertionError.

(** [P(k, argnum=argnum)] (covfuncs/linfunctls/_registry.py:25-40, 198-237) behind the checks
    of covfuncs/_utils.py:6-42. *)
Fixpoint proj_cov (k : cov) (p : proj) (argnum : nat) : result pcross :=
  if (1 <? argnum)%nat then Err ValueError
  else match k with
  | CNotImpl => Err NotImplementedError
  | CScaled s k' =>
      if negb (shape_eqb (c_shape k') []) then Err ValueError
      else bind (proj_cov k' p argnum) (fun x => Ok (PScaled s x))
  | CSum ks =>
      if negb (shape_eqb (match ks with k' :: _ => c_shape k' | [] => [] end) []) then Err ValueError
      else match ks with
      | [] => Err TypeError
      | k0 :: rest =>
          bind (proj_cov k0 p argnum) (fun x0 =>
            (fix go (ks : list cov) (acc : pcross) : result pcross :=
               match ks with
               | [] => Ok acc
               | k' :: ks' => bind (proj_cov k' p argnum) (fun x => bind (p_add acc x) (fun s => go ks' s))
               end) rest x0)
      end
  | CMat m =>
      if negb (shape_eqb (mt_shape m) []) then Err ValueError
      else match mt_nu m with
           | HalfInt 1 => Ok (PM32 m p (argnum =? 0)%nat)
           | _ => Ok (PQuad k p (argnum =? 0)%nat)
           end
  | _ => if negb (shape_eqb (c_shape k) []) then Err ValueError
         else Ok (PQuad k p (argnum =? 0)%nat)
  end.

(** Evaluation at the point [t] gives the vector [w].  Closed form: 131-172.  Quadrature:
    45-69, whatever [reverse].  Scaled and summed: _arithmetic.py (crosscov) 37-38, 75-76. *)
Fixpoint p_gives (x : pcross) (t : R) (w : nat -> R) : Prop :=
  match x with
  | PM32 m p _ => normalizer_gives (pr_basis p) (pr_normalized p) (m32_rhs (pr_basis p) (mt_len m []) t) w
  | PQuad k p _ => exists res, quad_rhs (pr_basis p) (fun u => ceval k (pt t) (pt u)) res
                      /\ normalizer_gives (pr_basis p) (pr_normalized p) res w
  | PScaled s x => exists w', p_gives x t w' /\ forall i, w i = s * w' i
  | PSum x y => exists w1 w2, p_gives x t w1 /\ p_gives y t w2 /\ forall i, w i = w1 i + w2 i
  end.

(** [kernel_variance] for all pairs of basis elements (93-111).  Simplified:
    [scipy.integrate.dblquad] is the exact iterated integral, the first argument of its
    integrand being the inner variable. *)
Definition elem (b : basis) (i : nat) (x : R) : R := match eval_elem b (Z.of_nat i) x with Ok e => e | Err _ => 0 end.
Definition dbl_rhs (b0 b1 : basis) (k : R -> R -> R) (res : nat -> nat -> R) : Prop :=
  forall i j, (i < b_len b0)%nat -> (j < b_len b1)%nat -> exists lo0 hi0 lo1 hi1 f,
    support_bounds b0 (Z.of_nat i) = Ok (lo0, hi0) /\ support_bounds b1 (Z.of_nat j) = Ok (lo1, hi1) /\
    (forall x0, is_RInt (fun x1 => elem b0 i x0 * k x0 x1 * elem b1 j x1) lo1 hi1 (f x0)) /\
    is_RInt f lo0 hi0 (res i j).
(** [P(x)] for a cross-covariance, the matrix [w]: 74-116 (the handler is inherited by the
    closed form), scaled and summed ones in crosscov/linfunctls/_linfunctl.py:21-31. *)
Definition double_leaf (k : cov) (p : proj) (reverse : bool) (self : proj) (w : nat -> nat -> R) : Prop :=
  let '(p0, p1) := if reverse then (p, self) else (self, p) in
  exists res res1, dbl_rhs (pr_basis p0) (pr_basis p1) (fun x0 x1 => ceval k (pt x0) (pt x1)) res /\
    (forall i, (i < b_len (pr_basis p0))%nat -> normalizer_gives (pr_basis p1) (pr_normalized p1) (res i) (res1 i)) /\
    (forall j, (j < b_len (pr_basis p1))%nat ->
       normalizer_gives (pr_basis p0) (pr_normalized p0) (fun i => res1 i j) (fun i => w i j)).
Fixpoint p_double (self : proj) (x : pcross) (w : nat -> nat -> R) : Prop :=
  match x with
  | PM32 m p r => double_leaf (CMat m) p r self w
  | PQuad k p r => double_leaf k p r self w
  | PScaled s x => exists w', p_double self x w' /\ forall i j, w i j = s * w' i j
  | PSum x y => exists w1 w2, p_double self x w1 /\ p_double self y w2 /\ forall i j, w i j = w1 i j + w2 i j
  end.
