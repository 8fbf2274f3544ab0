(** Model of function arithmetic: [src/linpde_gp/functions/_constant.py],
    [_jax.py], [_jax_arithmetic.py] and the corresponding dispatch in
    [_polynomial.py].
    Simplified: functions are evaluated at one point (no batch axes); an array
    is a function from multi-indices to floats (idealised as reals). *)
From Coq Require Import List Reals Bool Arith Qcanon.
From Verif Require Import Base PolyModel PolyClassModel NdArray.
Import ListNotations.
Open Scope R_scope.

Definition array := index -> R.

(** Function objects.  [FOther] stands for every JaxFunction that inherits the
    arithmetic of JaxFunction unchanged (JaxLambdaFunction, Affine,
    StackedFunction, Monomial, ...), given by its shapes and values. *)
Inductive fn :=
| FOther (i o : shape) (g : array -> array)
| FConst (i o : shape) (v : array)      (* _constant.py:12-16 Constant *)
| FZero (i o : shape)                   (* _constant.py:52-54 Zero *)
| FPoly (p : pypoly)                    (* _polynomial.py:39-48 *)
| FScaled (c : R) (f : fn)              (* _jax_arithmetic.py:15-25 *)
| FSum (fs : list fn).                  (* _jax_arithmetic.py:52-61 *)

(** [.input_shape], [.output_shape] (constructors cited above). *)
Fixpoint in_shape (f : fn) : shape :=
  match f with
  | FOther i _ _ | FConst i _ _ | FZero i _ => i
  | FPoly _ => []
  | FScaled _ f => in_shape f
  | FSum fs => match fs with f :: _ => in_shape f | [] => [] end
  end.
Fixpoint out_shape (f : fn) : shape :=
  match f with
  | FOther _ o _ | FConst _ o _ | FZero _ o => o
  | FPoly _ => []
  | FScaled _ f => out_shape f
  | FSum fs => match fs with f :: _ => out_shape f | [] => [] end
  end.

(** [functools.reduce(operator.add, values)]. *)
Definition reduce_add (l : list R) : R :=
  match l with [] => 0 | v :: l' => fold_left Rplus l' v end.

(** Evaluation at one point: _constant.py:22-26, _polynomial.py:61-68,
    _jax_arithmetic.py:35-36, 67-70 (the jax versions 38-39, 72-75 are the same
    arithmetic). *)
Fixpoint feval (f : fn) (x : array) (k : index) : R :=
  match f with
  | FOther _ _ g => g x k
  | FConst _ _ v => v k
  | FZero _ _ => 0
  | FPoly p => py_eval p (x [])
  | FScaled c f => c * feval f x k
  | FSum fs => reduce_add (map (fun f => feval f x k) fs)
  end.

(** _jax_arithmetic.py:77-87 ([_expand_summands]). *)
Definition expand_summands (fs : list fn) : list fn :=
  flat_map (fun f => match f with FSum gs => gs | _ => [f] end) fs.

(** _jax_arithmetic.py:52-61 ([JaxSumFunction.__init__]); the shapes are
    compared on the arguments before expansion. *)
Definition jax_sum (a b : fn) : result fn :=
  if negb (shape_eqb (in_shape b) (in_shape a)) then Err AssertionError
  else if negb (shape_eqb (out_shape b) (out_shape a)) then Err AssertionError
  else Ok (FSum (expand_summands [a; b])).

(** NumPy addition of two arrays, with broadcasting. *)
Definition np_add (s1 : shape) (v1 : array) (s2 : shape) (v2 : array) : result (shape * array) :=
  bind (broadcast_shapes s1 s2) (fun s =>
    Ok (s, fun k => v1 (operand_index s1 k) + v2 (operand_index s2 k))).

(** _constant.py:45-49 ([Constant + Constant]). *)
Definition const_add_const (i1 o1 : shape) (v1 : array) (i2 o2 : shape) (v2 : array) : result fn :=
  if negb (shape_eqb i1 i2) then Err AssertionError
  else bind (np_add o1 v1 o2 v2) (fun '(o, v) => Ok (FConst i1 o v)).

(** _constant.py:63-69 ([JaxFunction + Zero], [Constant + Zero]). *)
Definition add_zero (f : fn) (i o : shape) : result fn :=
  if negb (shape_eqb i (in_shape f)) then Err AssertionError
  else if negb (shape_eqb o (out_shape f)) then Err AssertionError
  else Ok f.

(** _polynomial.py:105-107 with the [float()] conversion of the coefficients in
    43: an array of more than one entry (or none) cannot be converted. *)
Definition poly_add_constant (p : pypoly) (o : shape) (v : array) : result fn :=
  if (size o =? 1)%nat then Ok (FPoly (py_add_const p (v (repeat 0%nat (length o)))))
  else Err TypeError.

(** [a + b] for two JaxFunctions: _jax.py:41-47, _constant.py:34-36, 45-49,
    63-69, _polynomial.py:101-107, 127-136, 215-217, 240-249. *)
Definition fn_add (a b : fn) : result fn :=
  match a with
  | FPoly p =>
      match b with
      | FPoly q => Ok (FPoly (py_add p q))
      | FConst _ o v => poly_add_constant p o v
      | FZero _ o => poly_add_constant p o (fun _ => 0)
      | _ => jax_sum a b
      end
  | FConst i o v =>
      match b with
      | FZero i' o' => add_zero a i' o'
      | FConst i' o' v' => const_add_const i o v i' o' v'
      | _ => jax_sum a b
      end
  | FZero i o =>
      match b with
      | FZero i' o' => add_zero a i' o'
      | FConst i' o' v' => const_add_const i o (fun _ => 0) i' o' v'
      | _ => jax_sum a b
      end
  | _ =>
      match b with
      | FZero i o => add_zero a i o
      | _ => jax_sum a b
      end
  end.

(** [scalar * f]: _polynomial.py:113-120, 227-229, 277-282; _constant.py:38-42,
    56-60; _jax_arithmetic.py:41-48; _jax.py:49-58. *)
Definition fn_scale (s : pyscalar) (f : fn) : fn :=
  match f with
  | FPoly p => FPoly (py_scale s p)
  | FConst i o v => FConst i o (fun k => scalar_value s * v k)
  | FZero i o => f
  | FScaled c g => FScaled (scalar_value s * c) g
  | _ => FScaled (scalar_value s) f
  end.

(** [-f]: _polynomial.py:98-99, 212-213; probnum's [Function.__neg__] is
    [-1.0 * self] (probnum is not in the repository). *)
Definition fn_neg (f : fn) : fn :=
  match f with
  | FPoly p => FPoly (py_neg p)
  | _ => fn_scale (SFloat (-1)) f
  end.

(** [a - b]: _polynomial.py:109-110, 139-148, 252-261; probnum's
    [Function.__sub__] is [self + (-other)]. *)
Definition fn_sub (a b : fn) : result fn :=
  match a, b with
  | FPoly p, FPoly q => Ok (FPoly (py_sub p q))
  | _, _ => fn_add a (fn_neg b)
  end.
