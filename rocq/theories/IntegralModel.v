(** Model of the Lebesgue integral functional on one or both arguments of a covariance
    function: [randprocs/covfuncs/linfunctls/_registry.py] (general, integrals),
    [randprocs/crosscov/linfunctls/integrals/{_matern_lebesgue,_radial_lebesgue,
    _covfunc_lebesgue}.py] and the scaled and summed cross-covariances of
    [randprocs/crosscov/linfunctls/_linfunctl.py] and [crosscov/_arithmetic.py].
    One evaluation point; the numpy and the jax evaluation perform the same arithmetic.
    Only integrals over an interval, hence kernels with scalar inputs and outputs. *)
From Coq Require Import List Reals Bool Arith ZArith.
From Coquelicot Require Import Coquelicot.
From Verif Require Import Base NdArray PolyModel PolyClassModel FunExprModel KernelModel.
Import ListNotations.
Open Scope R_scope.

(** ** Antiderivatives of the radial profile *)
(** _matern_lebesgue.py:18, 19 *)
Definition sqrt_2nu (p : nat) : R := sqrt (INR (2 * p + 1)).
Definition neg_inv_sqrt_2nu (p : nat) : R := - (1 / sqrt_2nu p).
(** 22-33: the loop [for _ in range(order_int)] and the attribute [_poly] *)
Fixpoint anti_loop (n : nat) (p_i poly : pypoly) : pypoly :=
  match n with
  | O => poly
  | S n' => let p_i' := py_diff p_i in anti_loop n' p_i' (py_add poly p_i')
  end.
Definition anti_poly (p : nat) : pypoly :=
  let p_i := make_rational (half_integer_coefficients p) in anti_loop p p_i p_i.
(** 35 *)
Definition anti_C1 (p : nat) : R := - neg_inv_sqrt_2nu p * coeff0 (anti_poly p).
(** 37-45 ([_evaluate]), the same arithmetic in 47-55 *)
Definition anti_eval (p : nat) (r : R) : R :=
  neg_inv_sqrt_2nu p * exp (- sqrt_2nu p * r) * py_eval (anti_poly p) (sqrt_2nu p * r) + anti_C1 p.
(** 59-82: [HalfIntegerMaternRadialSecondAntiderivative.__init__], the loop
    [for i in range(1, order_int + 1)] *)
Definition inv_2nu (p : nat) : R := 1 / INR (2 * p + 1).
Fixpoint anti2_loop (is : list nat) (p_i poly : pypoly) : pypoly :=
  match is with
  | [] => poly
  | i :: is' => let p_i' := py_diff p_i in
                anti2_loop is' p_i' (py_add poly (py_scale (SInt (Z.of_nat (i + 1))) p_i'))
  end.
Definition anti2_poly (p : nat) : pypoly :=
  let p_i := make_rational (half_integer_coefficients p) in anti2_loop (seq 1 p) p_i p_i.
Definition anti2_C2 (p : nat) : R := - inv_2nu p * coeff0 (anti2_poly p).
(** 84-91 ([_evaluate]), the same arithmetic in 93-102 *)
Definition anti2_eval (p : nat) (r : R) : R :=
  inv_2nu p * exp (- sqrt_2nu p * r) * py_eval (anti2_poly p) (sqrt_2nu p * r) + anti_C1 p * r + anti2_C2 p.

(** ** Integrals of radial kernels *)
(** [(-1) ** (b < x)] *)
Definition neg_if_less (b x : R) : R := if Rltb b x then -1 else 1.
(** _radial_lebesgue.py:34-41 ([_evaluate]), with the antiderivative as argument *)
Definition radial_single (l : R) (F : R -> R) (a b x : R) : R :=
  l * (neg_if_less b x * F (Rabs (b - x) / l) - neg_if_less a x * F (Rabs (a - x) / l)).
(** _radial_lebesgue.py:53-69 *)
Definition radial_double (l : R) (G : R -> R) (a b c d : R) : R :=
  l ^ 2 * (G (Rabs (b - c) / l) - G (Rabs (a - c) / l) - G (Rabs (b - d) / l) + G (Rabs (a - d) / l)).

(** ** Cross-covariances *)
(** A scalar point as an array of shape [()]. *)
Definition pt (x : R) : array := fun _ => x.
(** [UnivariateHalfIntegerMaternLebesgueIntegral] (_matern_lebesgue.py:105-122),
    [CovarianceFunction_Identity_LebesgueIntegral] (_covfunc_lebesgue.py:23-39), and the
    scaled and summed cross-covariances; the flag is [reverse]. *)
Inductive xcov :=
| XMat (l : R) (p : nat) (a b : R) (reverse : bool)
| XQuad (k : cov) (a b : R) (reverse : bool)
| XScaled (s : R) (x : xcov)
| XSum (x y : xcov).

(** [reverse] *)
Fixpoint x_reverse (x : xcov) : bool :=
  match x with XMat _ _ _ _ r | XQuad _ _ _ r => r | XScaled _ x => x_reverse x | XSum x _ => x_reverse x end.

(** [__add__] with the assertion of [SumProcessVectorCrossCovariance] (_arithmetic.py
    (crosscov) 53-63; all the shapes are [()]). *)
Definition x_add (x y : xcov) : result xcov :=
  if Bool.eqb (x_reverse y) (x_reverse x) then Ok (XSum x y) else Err AssertionError.

(** [LebesgueIntegral((a, b))(k, argnum=argnum)]: covfuncs/linfunctls/_registry.py:25-40
    (scaled, sum), 157-172 (general), 175-190 (Matérn); _utils.py:6-42 (shape check).
    Stacked kernels are not modelled here. *)
Fixpoint lebesgue_cov (k : cov) (a b : R) (argnum : nat) : result xcov :=
  if (1 <? argnum)%nat then Err ValueError
  else match k with
  | CNotImpl => Err NotImplementedError
  | CScaled s k' =>
      if negb (shape_eqb (c_shape k') []) then Err ValueError
      else bind (lebesgue_cov k' a b argnum) (fun x => Ok (XScaled s x))
  | CSum ks =>
      if negb (shape_eqb (match ks with k' :: _ => c_shape k' | [] => [] end) []) then Err ValueError
      else match ks with
      | [] => Err TypeError
      | k0 :: rest =>
          bind (lebesgue_cov k0 a b argnum) (fun x0 =>
            (fix go (ks : list cov) (acc : xcov) : result xcov :=
               match ks with
               | [] => Ok acc
               | k' :: ks' => bind (lebesgue_cov k' a b argnum) (fun x => bind (x_add acc x) (fun s => go ks' s))
               end) rest x0)
      end
  | CMat m =>
      if negb (shape_eqb (mt_shape m) []) then Err ValueError
      else match mt_nu m with
           | HalfInt p => Ok (XMat (mt_len m []) p a b (argnum =? 0)%nat)
           | OtherNu _ _ => Ok (XQuad k a b (argnum =? 0)%nat)
           end
  | _ => if negb (shape_eqb (c_shape k) []) then Err ValueError
         else Ok (XQuad k a b (argnum =? 0)%nat)
  end.

(** Evaluation at a point.  [XQuad]: _covfunc_lebesgue.py:45-51, whatever the flag;
    simplified: [scipy.integrate.quad] is the exact Riemann integral.
    [XScaled], [XSum]: _arithmetic.py (crosscov) 37-38, 75-76. *)
Fixpoint x_eval (x : xcov) (t : R) : R :=
  match x with
  | XMat l p a b _ => radial_single l (anti_eval p) a b t
  | XQuad k a b _ => RInt (fun u => ceval k (pt t) (pt u)) a b
  | XScaled s x => s * x_eval x t
  | XSum x y => x_eval x t + x_eval y t
  end.

(** [LebesgueIntegral((a, b))(x)], a scalar covariance: _matern_lebesgue.py:129-141;
    _covfunc_lebesgue.py:57-71 (simplified: [dblquad] is the exact iterated integral, the
    first argument of its integrand being the inner variable); scaled and summed
    cross-covariances: crosscov/linfunctls/_linfunctl.py:21-31. *)
Fixpoint lebesgue_x (x : xcov) (a b : R) : R :=
  match x with
  | XMat l p c d _ => radial_double l (anti2_eval p) a b c d
  | XQuad k c d reverse =>
      let '(a0, b0, a1, b1) := if reverse then (c, d, a, b) else (a, b, c, d) in
      RInt (fun x0 => RInt (fun x1 => ceval k (pt x0) (pt x1)) a1 b1) a0 b0
  | XScaled s x => s * lebesgue_x x a b
  | XSum x y => lebesgue_x x a b + lebesgue_x y a b
  end.
