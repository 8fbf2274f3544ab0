(** The jax programs of the covariance functions with closed forms
    ([randprocs/covfuncs/linfuncops/diffops/{_expquad,_matern}.py], [_jax_arithmetic.py]) and nested
    fallbacks to automatic differentiation on them.  Simplified as in [AdModel]; both points given;
    parameters are constants of the program, the in-place update behind C37 is left out. *)
From Coq Require Import List Reals Bool Arith ZArith.
From Verif Require Import Base NdArray PolyModel PolyClassModel FunExprModel DiffopModel LfoModel KernelModel AdModel.
Import ListNotations.
Open Scope R_scope.

(** [x0 - x1] *)
Definition pdiff (i : index) : prog := PSub (PVar false i) (PVar true i).
(** [_batched_sum_jax] (_jax.py:64-67) and [_batched_euclidean_norm_sq_jax] (69-72) *)
Definition pbsum (sh : shape) (f : index -> prog) : prog := psum (map f (all_indices sh)).
Definition pnorm_sq (sh : shape) (f : index -> prog) : prog := pbsum sh (fun i => PPow (f i) 2).
(** [_batched_sum_jax(a * diffs)] *)
Definition pproj (sh : shape) (a : array) : prog := pbsum sh (fun i => PMul (PCst (a i)) (pdiff i)).
(** [jnp.exp(-0.5 * dists_sq)] (_expquad.py:69-73, 136-142) *)
Definition pexp_len (e : expquad) : prog :=
  PExp (PMul (PCst (- (1/2))) (pnorm_sq (eq_shape e) (fun i => PDiv (pdiff i) (PCst (eq_len e i))))).
(** [jnp.exp(-norm_sq(scale_factors * diffs))] (_expquad.py:216-218, 343-345) *)
Definition pexp_scale (e : expquad) : prog :=
  PExp (PNeg (pnorm_sq (eq_shape e) (fun i => PMul (PCst (eq_scale e i)) (pdiff i)))).
(** _expquad.py:203-218 *)
Definition explap_prog (e : expquad) (w : array) : prog :=
  PMul (PSub (pbsum (eq_shape e) (fun i => PMul (PMul (PCst (explap_sfsq e w i)) (pdiff i)) (pdiff i))) (PCst (explap_trace e w))) (pexp_scale e).
(** [scaled_diffs], [_batched_sum_jax(a * scaled_diffs)] (_matern.py:95-98, 213-221, 580-583) *)
Definition mt_proj (m : matern) (a : array) : prog :=
  pbsum (mt_shape m) (fun i => PMul (PCst (a i)) (PMul (pdiff i) (PCst (mt_scale m i)))).
(** [poly.jax(scaled_dists)], [jnp.exp(-scaled_dists)] *)
Definition mt_r (m : matern) : prog := dist_prog (mt_shape m) (mt_scale m).
Definition mt_poly (m : matern) (q : pypoly) : prog := horner_prog (float_coeffs q) (mt_r m).
Definition mt_exp (m : matern) : prog := PExp (PNeg (mt_r m)).
(** [functools.reduce(operator.add, ...)] (_jax_arithmetic.py:76-80) *)
Definition preduce (ps : list prog) : result prog := match ps with [] => Err TypeError | p :: ps' => Ok (fold_left PAdd ps' p) end.

(** [_evaluate_jax]: _expquad.py:59-73, 124-142, 203-218, 314-345, 412-432; _matern.py:88-110,
    205-229, 320-338, 412-421, 485-494, 573-586; _jax_arithmetic.py:31-32, 76-80.  The result of a
    fallback is treated below. *)
Fixpoint cov_prog (c : cov) : result prog :=
  match c with
  | CExp e => Ok (expquad_prog e)
  | CExpDir e d r => Ok (PMul (pproj (eq_shape e) (expdir_rescaled e d r)) (pexp_len e))
  | CExpDirDir e d0 d1 =>
      Ok (PMul (PSub (PCst (expdirdir_inprod e d0 d1))
                     (PMul (pproj (eq_shape e) (fun i => d0 i / eq_len e i ^ 2)) (pproj (eq_shape e) (fun i => d1 i / eq_len e i ^ 2))))
               (pexp_len e))
  | CExpLap e w _ => Ok (explap_prog e w)
  | CExpLapLap e w0 w1 =>
      let sq (a : array) := pbsum (eq_shape e) (fun i => PMul (PCst (a i)) (PPow (pdiff i) 2)) in
      Ok (PMul (PAdd (PSub (PMul (PSub (sq (explap_sfsq e w0)) (PCst (explap_trace e w0))) (PSub (sq (explap_sfsq e w1)) (PCst (explap_trace e w1))))
                           (PMul (PCst 4) (sq (fun i => explap_sfsq e w0 i * explap_winv e w1 i))))
                     (PMul (PCst 2) (PCst (explaplap_trace e w0 w1))))
               (pexp_scale e))
  | CExpDirLap e d w r =>
      let k := PSub (PMul (PMul (PCst 2) (pproj (eq_shape e) (fun i => expdirlap_rescaled e d i * explap_winv e w i))) (expquad_prog e))
                    (PMul (pproj (eq_shape e) (expdirlap_rescaled e d)) (explap_prog e w)) in
      Ok (if r then PNeg k else k)
  | CMat m => matern_prog m
  | CMatDir m d r q => Ok (PMul (PMul (mt_poly m q) (mt_exp m)) (mt_proj m (matdir_scaled m d r)))
  | CMatDirDir m d0 d1 npd pd =>
      Ok (PMul (PSub (PMul (PCst (matdirdir_inprod m d0 d1)) (mt_poly m npd))
                     (PMul (PMul (mt_proj m (fun i => mt_scale m i * d0 i)) (mt_proj m (fun i => mt_scale m i * d1 i))) (mt_poly m pd)))
               (mt_exp m))
  | CUMatDirDir m d0 d1 q => Ok (PMul (PMul (PCst (umatdirdir_prod m d0 d1)) (mt_poly m q)) (mt_exp m))
  | CUMatLap m w _ q => Ok (PMul (PMul (PCst (umatlap_factor m w)) (mt_exp m)) (mt_poly m q))
  | CUMatLapLap m w0 w1 q => Ok (PMul (PMul (PCst (umatlaplap_factor m w0 w1)) (mt_exp m)) (mt_poly m q))
  | CUMatDirLap m d w r q => Ok (PMul (PMul (mt_exp m) (mt_poly m q)) (mt_proj m (umatdirlap_scaled m d w r)))
  | CScaled s c => bind (cov_prog c) (fun p => Ok (PMul (PCst s) p))
  | CSum cs => bind ((fix go (cs : list cov) : result (list prog) :=
        match cs with
        | [] => Ok []
        | c :: cs' => bind (cov_prog c) (fun p => bind (go cs') (fun ps => Ok (p :: ps)))
        end) cs) preduce
  | CJax _ _ => Err Unmodelled
  | CNotImpl => Err NotImplementedError
  end.

(** Operators one after the other, each falling back to automatic differentiation of the program
    before it (covfuncs/linfuncops/diffops/_registry.py:15-28). *)
Fixpoint ad_ops (ops : list (dop * nat)) (p : prog) : result prog :=
  match ops with [] => Ok p | (d, a) :: ops' => bind (ad_op d a p) (ad_ops ops') end.
