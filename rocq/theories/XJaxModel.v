(** Model of the jax versions of integrated covariance functions
    ([randprocs/crosscov/linfunctls/integrals/], [_evaluate_jax]) under automatic differentiation: the
    program that is traced, for an argument with the value [t].  Simplified as in [AdModel] and
    [IntegralModel]; one point. *)
From Coq Require Import List Reals Bool Arith ZArith.
From Verif Require Import Base NdArray PolyModel PolyClassModel FunExprModel KernelModel IntegralModel AdModel.
Import ListNotations.
Open Scope R_scope.

(** [HalfIntegerMaternRadialAntiderivative._evaluate_jax] (_matern_lebesgue.py:47-55) *)
Definition anti_prog (p : nat) (r : prog) : prog :=
  PAdd (PMul (PMul (PCst (neg_inv_sqrt_2nu p)) (PExp (PMul (PCst (- sqrt_2nu p)) r)))
             (horner_prog (float_coeffs (anti_poly p)) (PMul (PCst (sqrt_2nu p)) r)))
       (PCst (anti_C1 p)).
(** [HalfIntegerMaternRadialSecondAntiderivative._evaluate_jax] (_matern_lebesgue.py:93-102) *)
Definition anti2_prog (p : nat) (r : prog) : prog :=
  PAdd (PAdd (PMul (PMul (PCst (inv_2nu p)) (PExp (PMul (PCst (- sqrt_2nu p)) r)))
                   (horner_prog (float_coeffs (anti2_poly p)) (PMul (PCst (sqrt_2nu p)) r)))
             (PMul (PCst (anti_C1 p)) r))
       (PCst (anti2_C2 p)).
(** [jnp.sign] *)
Definition sign (r : R) : R := if Reqb r 0 then 0 else if Rltb r 0 then -1 else 1.
(** [jnp.abs(c - x)] for an [x] with the value [t]: jax's rule for [abs] is [g * sign(x)], and the
    tangent of [sign] is zero, so that it behaves like multiplication with the sign. *)
Definition abs_prog (c t : R) : prog := PMul (PCst (sign (c - t))) (PSub (PCst c) (PVar false [])).
(** [UnivariateRadialCovarianceFunctionLebesgueIntegral._evaluate_jax] (_radial_lebesgue.py:43-50).
    [(-1) ** (b < x)] has no tangent. *)
Definition radial_prog (l : R) (F : prog -> prog) (a b t : R) : prog :=
  let part c := PMul (PCst (neg_if_less c t)) (F (PDiv (abs_prog c t) (PCst l))) in
  PMul (PCst l) (PSub (part b) (part a)).
(** Also _covfunc_lebesgue.py:53-54; _arithmetic.py (crosscov) 40-41, 78-79 ([sum] starts from 0) *)
Fixpoint x_prog (x : xcov) (t : R) : result prog :=
  match x with
  | XMat l p a b _ => Ok (radial_prog l (anti_prog p) a b t)
  | XQuad _ _ _ _ => Err NotImplementedError
  | XScaled s x => bind (x_prog x t) (fun p => Ok (PMul (PCst s) p))
  | XSum x y => bind (x_prog x t) (fun p => bind (x_prog y t) (fun q => Ok (PAdd (PAdd (PCst 0) p) q)))
  end.
