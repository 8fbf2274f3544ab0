(** Model of operators applied to functions that are given by jax programs, and to functions that
    are not: [linfuncops/diffops/_lindiffop.py] 103-129, [linfuncops/_arithmetic.py] 98-102 and
    126-132, and the programs of the solutions attached to the problems ([problems/pde/_poisson.py]
    130-134, [_heat.py] 96-144).

    Simplified: functions with their own handlers (polynomials, constants, piecewise functions) are
    in LfoModel and PwJaxModel; an operator is applied to the program of a sum or multiple as a
    whole, not to the summands.  One point. *)
From Coq Require Import List Reals Bool Arith ZArith.
From Verif Require Import Base NdArray PolyModel PolyClassModel FunExprModel DiffopModel LfoModel KernelModel PdeModel AdModel.
Import ListNotations.
Open Scope R_scope.

(** [LinearDifferentialOperator.__call__] of a [JaxFunction] (_lindiffop.py:103-122;
    partial derivatives of order zero return the function, _partial_derivative.py:56-59; Laplacians
    on arrays with several axes are not modelled) *)
Definition diff_prog (d : dop) (p : prog) : result prog :=
  if d_order0 d then Ok p
  else match d with
       | DLap _ sh _ => if (length sh <=? 1)%nat then ad_op d 0 p else Err Unmodelled
       | _ => ad_op d 0 p
       end.
(** Multiples (_arithmetic.py:37-38), [functools.reduce(operator.add, ...)] over the summands
    (98-102), [functools.reduce] over the reversed factors (126-132) *)
Fixpoint op_prog (L : lfo) (p : prog) : result prog :=
  match L with
  | OId _ _ => Ok p
  | ODiff d => diff_prog d p
  | OScaled s M => bind (op_prog M p) (fun q => Ok (PMul (PCst s) q))
  | OSum Ls =>
      match Ls with
      | [] => Err TypeError
      | M :: Ms => fold_left (fun acc N => bind acc (fun a => bind (op_prog N p) (fun b => Ok (PAdd a b)))) Ms (op_prog M p)
      end
  | OComp Ls => fold_left (fun acc N => bind acc N) (rev (map op_prog Ls)) (Ok p)
  end.

(** The value at a point of an operator applied to a [pn.functions.Function] that is not a
    [JaxFunction] (_lindiffop.py:124-129): [h] is the evaluation of the function.  The derivative is
    built, but its evaluation passes a tracer to [Function.__call__], which converts its argument to
    a NumPy array: jax raises [TracerArrayConversionError], a [TypeError].  Simplified: errors that
    are raised when the derivative is built are raised at the evaluation. *)
Definition diff_numpy (d : dop) (h : array -> result R) : array -> result R :=
  if d_order0 d then h
  else fun _ => match d with DPartialNoJax _ => Err NotImplementedError | _ => Err TypeError end.
Fixpoint op_numpy (L : lfo) (h : array -> result R) : array -> result R :=
  match L with
  | OId _ _ => h
  | ODiff d => diff_numpy d h
  | OScaled s M => fun x => bind (op_numpy M h x) (fun y => Ok (s * y))
  | OSum Ls => fun x =>
      match Ls with
      | [] => Err TypeError
      | M :: Ms => fold_left (fun acc N => bind acc (fun a => bind (op_numpy N h x) (fun b => Ok (a + b)))) Ms (op_numpy M h x)
      end
  | OComp Ls => fold_left (fun g N => N g) (rev (map op_numpy Ls)) h
  end.

(** ** The programs of solutions *)
(** [Solution_PoissonEquation_DirichletProblem_1D_RHSConstant._evaluate_jax] (_poisson.py:130-134;
    coefficients 118-122) *)
Definition poisson_prog (l r rhs u_l u_r alpha : R) : prog :=
  let x := PVar false [] in
  let a2 := 0.5 * rhs / - alpha in
  let a1 := (u_r - u_l) / (r - l) in
  PAdd (PMul (PAdd (PMul (PCst a2) (PSub x (PCst r))) (PCst a1)) (PSub x (PCst l))) (PCst u_l).
(** [Solution_HeatEquation_..._BoundaryZero._jax_evaluate] (_heat.py:134-144; decay rates 116-118) *)
Definition heat_prog (t0 l r alpha : R) (cs : list R) : prog :=
  let t := PVar false [0%nat] in
  let x := PVar false [1%nat] in
  psum (map (fun '(c, w) => PMul (PMul (PCst c) (PSin (PMul (PCst w) (PSub x (PCst l)))))
                                 (PExp (PMul (PCst (alpha * w ^ 2)) (PSub (PCst t0) t))))
            (combine cs (frequencies l r (length cs)))).
(** Functions as the operators distinguish them (_lindiffop.py:110): with a jax program or without.
    The attached solution of the heat equation derives from [pn.functions.Function]
    (_heat.py:96-98) and its program is not used: the method is called [_jax_evaluate] (134) where
    [JaxFunction] has [_evaluate_jax] (functions/_jax.py:31-38). *)
Inductive fobj := JaxFn (p : prog) | NumpyFn (f : array -> R).
Definition poisson_solution (l r rhs u_l u_r alpha : R) : fobj := JaxFn (poisson_prog l r rhs u_l u_r alpha).
Definition heat_fobj (t0 l r alpha : R) (cs : list R) : fobj :=
  NumpyFn (fun tx => heat_eval t0 l r alpha cs (tx [0%nat]) (tx [1%nat])).
(** [L(f)(x)] *)
Definition op_value (L : lfo) (f : fobj) (x : array) : result ext :=
  match f with
  | JaxFn p => bind (op_prog L p) (fun q => Ok (run (x, x) q))
  | NumpyFn f => bind (op_numpy L (fun y => Ok (f y)) x) (fun y => Ok (Fin y))
  end.
