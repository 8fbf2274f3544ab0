(** Model of the automatic differentiation that differential operators fall back to
    ([linfuncops/diffops/_partial_derivative.py] 95-110, [_laplacian.py] 57-68,
    [_directional_derivative.py] 45-55), applied to the jax programs of the ExpQuad, Matérn and
    Wendland covariance functions, of polynomials and of sine series.

    A jax program is a term in the scalar primitives it traces to; an array is the family of its
    entries.  [jax.jvp] is modelled by the rules jax registers for these primitives, with symbolic
    zeros (jax is outside the repository).  Numbers are the reals with the infinities and NaN of
    IEEE arithmetic; simplified: no rounding, no overflow, zeros are positive.  One pair of points. *)
From Coq Require Import List Reals Bool Arith ZArith.
From Verif Require Import Base NdArray PolyModel PolyClassModel FunExprModel DiffopModel LfoModel KernelModel WendlandModel PdeModel.
Import ListNotations.
Open Scope R_scope.

(** ** Floating-point numbers *)
Inductive ext := Fin (r : R) | PInf | MInf | NaN.
Definition inf_of (s : R) : ext := if Reqb s 0 then NaN else if Rleb 0 s then PInf else MInf.
Definition eneg (a : ext) : ext := match a with Fin r => Fin (- r) | PInf => MInf | MInf => PInf | NaN => NaN end.
Definition eadd (a b : ext) : ext :=
  match a, b with
  | Fin r, Fin s => Fin (r + s)
  | NaN, _ | _, NaN | PInf, MInf | MInf, PInf => NaN
  | PInf, _ | _, PInf => PInf
  | MInf, _ | _, MInf => MInf
  end.
Definition emul (a b : ext) : ext :=
  match a, b with
  | Fin r, Fin s => Fin (r * s)
  | NaN, _ | _, NaN => NaN
  | Fin r, PInf | PInf, Fin r => inf_of r
  | Fin r, MInf | MInf, Fin r => inf_of (- r)
  | PInf, PInf | MInf, MInf => PInf
  | PInf, MInf | MInf, PInf => MInf
  end.
Definition ediv (a b : ext) : ext :=
  match a, b with
  | Fin r, Fin s => if Reqb s 0 then inf_of r else Fin (r / s)
  | NaN, _ | _, NaN => NaN
  | Fin _, _ => Fin 0
  | PInf, Fin s => if Rleb 0 s then PInf else MInf
  | MInf, Fin s => if Rleb 0 s then MInf else PInf
  | _, _ => NaN
  end.
Definition eexp (a : ext) : ext := match a with Fin r => Fin (exp r) | PInf => PInf | MInf => Fin 0 | NaN => NaN end.
Definition esqrt (a : ext) : ext := match a with Fin r => if Rleb 0 r then Fin (sqrt r) else NaN | PInf => PInf | _ => NaN end.
Definition esin (a : ext) : ext := match a with Fin r => Fin (sin r) | _ => NaN end.
Definition ecos (a : ext) : ext := match a with Fin r => Fin (cos r) | _ => NaN end.
(** [lax.integer_pow] *)
Definition epow (a : ext) (n : Z) : ext :=
  let p := Nat.iter (Z.to_nat (Z.abs n)) (emul a) (Fin 1) in if (n <? 0)%Z then ediv (Fin 1) p else p.
(** [a <= 1] *)
Definition ele1 (a : ext) : bool := match a with Fin r => Rleb r 1 | MInf => true | _ => false end.

(** ** Programs *)
(** [PVar b i]: entry [i] of the first ([b = false]) or second argument; [PWhere r a b]:
    [jnp.where(r <= 1, a, b)]. *)
Inductive prog :=
| PVar (b : bool) (i : index)
| PCst (c : R)
| PAdd (p q : prog) | PSub (p q : prog) | PMul (p q : prog) | PDiv (p q : prog)
| PNeg (p : prog) | PExp (p : prog) | PSqrt (p : prog) | PSin (p : prog) | PCos (p : prog)
| PPow (p : prog) (n : Z)
| PWhere (r p q : prog).
Definition env := (array * array)%type.
Definition arg (e : env) (b : bool) : array := if b then snd e else fst e.
Fixpoint run (e : env) (p : prog) : ext :=
  match p with
  | PVar b i => Fin (arg e b i)
  | PCst c => Fin c
  | PAdd p q => eadd (run e p) (run e q)
  | PSub p q => eadd (run e p) (eneg (run e q))
  | PMul p q => emul (run e p) (run e q)
  | PDiv p q => ediv (run e p) (run e q)
  | PNeg p => eneg (run e p)
  | PExp p => eexp (run e p)
  | PSqrt p => esqrt (run e p)
  | PSin p => esin (run e p)
  | PCos p => ecos (run e p)
  | PPow p n => epow (run e p) n
  | PWhere r p q => if ele1 (run e r) then run e p else run e q
  end.

(** ** [jax.jvp] *)
(** The tangent along the vector [v] of the argument [b]; [None] is a symbolic zero.  The rules of
    [jax.lax]: [exp]: [g * ans], [sqrt]: [g * (0.5 / ans)], [integer_pow]: [g * (n * x ** (n - 1))],
    [div]: [g / y] and [(-g * x) * y ** -2], [select]: zeros for a missing tangent of one branch. *)
Definition or_zero (t : option prog) : prog := match t with Some t => t | None => PCst 0 end.
Fixpoint tangent (b : bool) (v : array) (p : prog) : option prog :=
  match p with
  | PVar b' i => if Bool.eqb b b' then Some (PCst (v i)) else None
  | PCst _ => None
  | PAdd p q => match tangent b v p, tangent b v q with
                | None, t => t | t, None => t | Some s, Some t => Some (PAdd s t) end
  | PSub p q => match tangent b v p, tangent b v q with
                | None, None => None | None, Some t => Some (PNeg t) | Some s, None => Some s | Some s, Some t => Some (PSub s t) end
  | PMul p q => match tangent b v p, tangent b v q with
                | None, None => None | None, Some t => Some (PMul p t) | Some s, None => Some (PMul s q)
                | Some s, Some t => Some (PAdd (PMul s q) (PMul p t)) end
  | PDiv p q => match tangent b v p, tangent b v q with
                | None, None => None
                | None, Some t => Some (PMul (PMul (PNeg t) p) (PPow q (-2)))
                | Some s, None => Some (PDiv s q)
                | Some s, Some t => Some (PAdd (PDiv s q) (PMul (PMul (PNeg t) p) (PPow q (-2)))) end
  | PNeg p => option_map PNeg (tangent b v p)
  | PExp p => option_map (fun g => PMul g (PExp p)) (tangent b v p)
  | PSqrt p => option_map (fun g => PMul g (PDiv (PCst (1 / 2)) (PSqrt p))) (tangent b v p)
  | PSin p => option_map (fun g => PMul g (PCos p)) (tangent b v p)
  | PCos p => option_map (fun g => PNeg (PMul g (PSin p))) (tangent b v p)
  | PPow p n => option_map (fun g => if (n =? 0)%Z then PCst 0 else PMul g (PMul (PCst (IZR n)) (PPow p (n - 1)))) (tangent b v p)
  | PWhere r p q => match tangent b v p, tangent b v q with
                    | None, None => None | s, t => Some (PWhere r (or_zero s) (or_zero t)) end
  end.
(** [jax.jvp(f, (x,), (v,))\[1\]] *)
Definition pjvp (b : bool) (p : prog) (v : array) : prog := or_zero (tangent b v p).
(** Nested calls of [jax.jvp] (_partial_derivative.py:95-110; nested operators: each fallback
    differentiates the previous function), in either argument, the first of the list innermost *)
Definition iterate (p : prog) (ds : list (bool * array)) : prog := fold_left (fun q d => pjvp (fst d) q (snd d)) ds p.
(** [jnp.sum], Python's [sum] of programs *)
Definition psum (l : list prog) : prog := fold_right PAdd (PCst 0) l.
(** [_jax_fallback] of partial derivatives, weighted Laplacians and directional derivatives
    (simplified: [jax.hessian] runs the forward mode over the reverse mode, here the forward mode
    twice).  [argnum]: 0 is the first argument, anything else the second. *)
Definition ad_op (d : dop) (argnum : nat) (p : prog) : result prog :=
  let b := negb (argnum =? 0)%nat in
  match d with
  | DPartial a => bind (factorize_first_order a) (fun fs => Ok (fold_left (fun df e => pjvp b df (mi_dir e)) fs p))
  | DPartialNoJax _ => Err NotImplementedError
  | DLap _ sh w =>
      Ok (psum (map (fun i => PMul (PCst (w i)) (pjvp b (pjvp b p (basis_vec i)) (basis_vec i))) (all_indices sh)))
  | DDir _ v => Ok (pjvp b p v)
  end.

(** ** The programs *)
(** [_squared_euclidean_distances_jax], [_euclidean_distances_jax] (_jax.py:104-147) with [x1] given *)
Definition sqdist_prog (sh : shape) (scale : array) : prog :=
  psum (map (fun i => PPow (PMul (PSub (PVar false i) (PVar true i)) (PCst (scale i))) 2) (all_indices sh)).
Definition dist_prog (sh : shape) (scale : array) : prog := PSqrt (sqdist_prog sh scale).
(** [Polynomial._evaluate_jax] (_polynomial.py:70-77) *)
Definition horner_prog (cs : list R) (x : prog) : prog :=
  fold_left (fun res k => PAdd (PMul res x) (PCst (nth k cs 0))) (rev (seq 0 (length cs - 1))) (PCst (nth (length cs - 1) cs 0)).
(** [ExpQuad._evaluate_jax] (_expquad.py:14-26) *)
Definition expquad_prog (e : expquad) : prog := PExp (PNeg (sqdist_prog (eq_shape e) (eq_scale e))).
(** [Matern._evaluate_jax] (_matern.py:15-46); [nu = inf] is not modelled here *)
Definition matern_prog (m : matern) : result prog :=
  match mt_nu m with
  | HalfInt p =>
      let r := dist_prog (mt_shape m) (mt_scale m) in
      Ok (PMul (horner_prog (float_coeffs (make_rational (half_integer_coefficients p))) r) (PExp (PNeg r)))
  | OtherNu _ _ => Err NotImplementedError
  end.
(** [WendlandFunction._evaluate_jax] (_wendland.py:218-221),
    [WendlandCovarianceFunction._evaluate_jax] (79-85) *)
Definition wendland_prog (w : wendland) : prog :=
  let r := dist_prog (wl_shape w) (wl_scale w) in PWhere r (horner_prog (float_coeffs (wl_poly w)) r) (PCst 0).
(** Functions of one number: polynomials, [Monomial._evaluate_jax] (_polynomial.py:35-36) and
    [TruncatedSineSeries._evaluate_jax] (_fourier.py:56-63) *)
Definition poly_prog (p : pypoly) : prog := horner_prog (float_coeffs p) (PVar false []).
Definition monomial_prog (n : nat) : prog := PPow (PVar false []) (Z.of_nat n).
Definition sine_prog (l r : R) (cs : list R) : prog :=
  psum (map (fun '(c, w) => PMul (PCst c) (PSin (PMul (PCst w) (PSub (PVar false []) (PCst l))))) (combine cs (frequencies l r (length cs)))).
