(** Model of linear operators on functions: [linfuncops/_linfuncop.py],
    [_arithmetic.py], [_identity.py], [diffops/_lindiffop.py],
    [diffops/_arithmetic.py], [diffops/_functions.py] and the [__call__] methods of
    the differential operators, applied to functions.
    Automatic differentiation by jax is modelled by derivatives along lines
    ([jvp]).  [SelectOutput] and operators given by arbitrary
    coefficients ([LinearDifferentialOperator] itself) are in GenModel. *)
From Coq Require Import List Reals Bool Arith ZArith.
From Coquelicot Require Import Coquelicot.
From Verif Require Import Base NdArray PolyClassModel FunExprModel DiffopModel.
Import ListNotations.
Open Scope R_scope.

(** Differential operators: [PartialDerivative], [_PartialDerivativeNoJax]
    (_partial_derivative.py), [WeightedLaplacian] with its subclasses [Laplacian] and
    [SpatialLaplacian], which have a handler for constants (_laplacian.py,
    _functions.py:8-19), and [DirectionalDerivative]. *)
Inductive dop :=
| DPartial (a : mi)
| DPartialNoJax (a : mi)
| DLap (consts : bool) (sh : shape) (w : index -> R)
| DDir (sh : shape) (d : index -> R).
(** Operator objects.  [OScaled] stands for [ScaledLinearFunctionOperator]
    (linfuncops/_arithmetic.py:12-57) and [ScaledLinearDifferentialOperator]
    (diffops/_arithmetic.py:10-62), which act on functions in the same way. *)
Inductive lfo :=
| OId (dom cod : shape)
| ODiff (d : dop)
| OScaled (s : R) (L : lfo)
| OSum (Ls : list lfo)
| OComp (Ls : list lfo).

Definition d_dom (d : dop) : shape :=
  match d with DPartial a | DPartialNoJax a => mi_shape a | DLap _ sh _ | DDir sh _ => sh end.
(** [input_shapes], [output_shapes] (_linfuncop.py:32-66) as set by the
    constructors. *)
Fixpoint o_in (L : lfo) : shape * shape :=
  match L with
  | OId dom cod => (dom, cod)
  | ODiff d => (d_dom d, [])
  | OScaled _ L => o_in L
  | OSum Ls => match Ls with L :: _ => o_in L | [] => ([], []) end
  | OComp Ls => last (map o_in Ls) ([], [])
  end.
Fixpoint o_out (L : lfo) : shape * shape :=
  match L with
  | OId dom cod => (dom, cod)
  | ODiff d => (d_dom d, [])
  | OScaled _ L => o_out L
  | OSum Ls => match Ls with L :: _ => o_out L | [] => ([], []) end
  | OComp Ls => match Ls with L :: _ => o_out L | [] => ([], []) end
  end.
Definition shapes_eqb (a b : shape * shape) : bool := shape_eqb (fst a) (fst b) && shape_eqb (snd a) (snd b).

(** [SumLinearFunctionOperator.__init__] (_arithmetic.py:64-92) *)
Definition mk_sum (Ls : list lfo) : result lfo :=
  match Ls with
  | [] => Err IndexError
  | L :: _ => if forallb (fun M => shapes_eqb (o_in M) (o_in L) && shapes_eqb (o_out M) (o_out L)) Ls
              then Ok (OSum Ls) else Err AssertionError
  end.
(** [CompositeLinearFunctionOperator.__init__] (_arithmetic.py:113-124) for two
    factors *)
Definition mk_comp2 (L M : lfo) : result lfo :=
  if shapes_eqb (o_in L) (o_out M) then Ok (OComp [L; M]) else Err AssertionError.
(** [__rmul__] (_linfuncop.py:120-128, _arithmetic.py:47-54, _lindiffop.py:150-158,
    diffops/_arithmetic.py:48-55) *)
Definition o_scale (s : R) (L : lfo) : lfo :=
  match L with OScaled t M => OScaled (s * t) M | _ => OScaled s L end.
(** [__neg__], [__add__], [__sub__] (_linfuncop.py:107-118) *)
Definition o_neg (L : lfo) : lfo := o_scale (-1) L.
Definition o_add (L M : lfo) : result lfo := mk_sum [L; M].
Definition o_sub (L M : lfo) : result lfo := o_add L (o_neg M).
(** [__matmul__] (_linfuncop.py:130-136, _arithmetic.py:142-144: distributes over a
    sum on the right) *)
Fixpoint o_matmul (L M : lfo) : result lfo :=
  match M with
  | OSum Ms => bind ((fix go (Ms : list lfo) : result (list lfo) :=
        match Ms with
        | [] => Ok []
        | M :: Ms' => bind (o_matmul L M) (fun P => bind (go Ms') (fun Ps => Ok (P :: Ps)))
        end) Ms) mk_sum
  | _ => mk_comp2 L M
  end.

(** Automatic differentiation: [jax.jvp(f, (x,), (v,))\[1\]] *)
Definition shift (x : array) (t : R) (v : array) : array := fun j => x j + t * v j.
Definition jvp (f : array -> R) (v : array) : array -> R := fun x => Derive (fun t => f (shift x t v)) 0.
Definition basis_vec (i : index) : array := fun j => if shape_eqb j i then 1 else 0.
(** [jnp.array(single_idx, dtype=float64)] *)
Definition mi_dir (a : mi) : array :=
  fun j => if index_in (mi_shape a) j then INR (nth (ravel (mi_shape a) j) (mi_arr a) 0%nat) else 0.
Definition rsum (l : list R) : R := fold_right Rplus 0 l.
(** Values of [_jax_fallback]: _partial_derivative.py:95-110, _laplacian.py:57-68
    ([jax.hessian] for domains of at most one axis), _directional_derivative.py:45-55. *)
Definition jax_fallback (d : dop) (f : array -> R) : result (array -> R) :=
  match d with
  | DPartial a => bind (factorize_first_order a) (fun fs => Ok (fold_left (fun df e => jvp df (mi_dir e)) fs f))
  | DPartialNoJax _ => Err NotImplementedError
  | DLap _ sh w =>
      if (length sh <=? 1)%nat
      then Ok (fun x => rsum (map (fun i => w i * jvp (jvp f (basis_vec i)) (basis_vec i) x) (all_indices sh)))
      else Err Unmodelled
  | DDir sh d => Ok (jvp f d)
  end.

(** Coefficients (DiffopModel) and [_to_sum_no_jax] (_lindiffop.py:79-101). *)
Definition d_coeffs (d : dop) : result (coeffs RF) :=
  match d with
  | DPartial a | DPartialNoJax a => partial_derivative RF a
  | DLap _ sh w => weighted_laplacian (F := RF) sh w
  | DDir sh v => directional_derivative (F := RF) sh v
  end.
Fixpoint mapM {A B} (f : A -> result B) (l : list A) : result (list B) :=
  match l with [] => Ok [] | x :: l' => bind (f x) (fun y => bind (mapM f l') (fun ys => Ok (y :: ys))) end.
Definition to_sum_no_jax (d : dop) : result lfo :=
  bind (d_coeffs d) (fun c =>
  bind (mapM (fun '(_, inn) => mk_sum (map (fun '(a, x) => o_scale x (ODiff (DPartialNoJax a))) inn)) (c_dict c)) mk_sum).

(** Handlers for [Constant] (_functions.py:8-19; [_PartialDerivativeNoJax.__call__]
    falls back to the one of [PartialDerivative], _partial_derivative.py:117-119). *)
Definition handles_constants (d : dop) : bool := match d with DLap b _ _ => b | _ => true end.
Definition is_constant_fn (f : fn) : bool := match f with FConst _ _ _ | FZero _ _ => true | _ => false end.
Definition d_order0 (d : dop) : bool :=
  match d with DPartial a | DPartialNoJax a => (mi_order a =? 0)%nat | _ => false end.
Definition is_partial (d : dop) : bool := match d with DPartial _ | DPartialNoJax _ => true | _ => false end.

(** [JaxSumFunction] of the given summands (functions/_jax_arithmetic.py:52-61) *)
Definition jax_sum_of (fs : list fn) : result fn :=
  match fs with
  | [] => Err IndexError
  | f :: _ => if forallb (fun g => shape_eqb (in_shape g) (in_shape f)) fs then
              if forallb (fun g => shape_eqb (out_shape g) (out_shape f)) fs then Ok (FSum (expand_summands fs))
              else Err AssertionError else Err AssertionError
  end.
(** [try: r except NotImplementedError: alternative] *)
Definition or_else {A} (r : result A) (alt : result A) : result A :=
  match r with Err NotImplementedError => alt | _ => r end.

Section Call.
Variable call : lfo -> fn -> result fn.
(** Handlers of the base class (_linfuncop.py:72-91) for the operator object [L];
    the handler of scaled functions (80-82) applies the operator to the scaled
    function itself. *)
Definition base_call (L : lfo) (f : fn) : result fn :=
  match f with
  | FSum gs => bind (mapM (call L) gs) jax_sum_of
  | FScaled c _ => bind (call L f) (fun g => Ok (FScaled c g))
  | FZero _ _ => Ok (FZero (fst (o_out L)) (snd (o_out L)))
  | _ => Err NotImplementedError
  end.
(** [_call_no_jax] (_lindiffop.py:131-143) *)
Definition call_no_jax (d : dop) (f : fn) : result fn :=
  or_else (base_call (ODiff d) f)
    (if is_partial d then Err NotImplementedError else bind (to_sum_no_jax d) (fun L => call L f)).
(** [LinearDifferentialOperator.__call__] (_lindiffop.py:103-129; every function here is a JaxFunction) *)
Definition lindiffop_call (d : dop) (f : fn) : result fn :=
  or_else (call_no_jax d f)
    (if negb (shape_eqb (in_shape f) (d_dom d)) then Err ValueError
     else if negb (shape_eqb (out_shape f) []) then Err ValueError
     else bind (jax_fallback d (fun x => feval f x [])) (fun g => Ok (FOther (d_dom d) [] (fun x _ => g x)))).
(** [__call__] of the subclasses (_partial_derivative.py:55-59, 117-119,
    _laplacian.py:53-55, 81-83, 116-118, _directional_derivative.py:41-43, _functions.py:8-19) *)
Definition diffop_call (d : dop) (f : fn) : result fn :=
  if handles_constants d && is_constant_fn f then
    if negb (shape_eqb (in_shape f) (d_dom d)) then Err AssertionError
    else if negb (shape_eqb (out_shape f) []) then Err AssertionError
    else Ok (FZero (d_dom d) [])
  else if d_order0 d then Ok f
  else lindiffop_call d f.
(** [functools.reduce(operator.add, (summand(f) for summand in summands))]
    (_arithmetic.py:98-102) *)
Definition sum_call (Ls : list lfo) (f : fn) : result fn :=
  match Ls with
  | [] => Err TypeError
  | L :: Ls' => fold_left (fun acc M => bind acc (fun a => bind (call M f) (fun b => fn_add a b))) Ls' (call L f)
  end.
(** [functools.reduce(lambda h, L: L(h), reversed(linfuncops), f)]
    (_arithmetic.py:126-132) *)
Definition comp_call (Ls : list lfo) (f : fn) : result fn :=
  fold_left (fun acc M => bind acc (fun h => call M h)) (rev Ls) (Ok f).
(** [Identity.__call__] (_identity.py:24-32) *)
Definition id_call (dom cod : shape) (f : fn) : result fn :=
  if negb (shape_eqb (in_shape f) dom) then Err ValueError
  else if negb (shape_eqb (out_shape f) cod) then Err ValueError else Ok f.
End Call.
(** [L(f)] with recursion depth bounded by [fuel]; beyond it Python raises
    RecursionError. *)
Fixpoint call (fuel : nat) (L : lfo) (f : fn) : result fn :=
  match fuel with
  | O => Err RecursionError
  | S n =>
      match L with
      | OId dom cod => id_call dom cod f
      | ODiff d => diffop_call (call n) d f
      | OScaled s M => bind (call n M f) (fun g => Ok (fn_scale (SFloat s) g))
      | OSum Ls => sum_call (call n) Ls f
      | OComp Ls => comp_call (call n) Ls f
      end
  end.
