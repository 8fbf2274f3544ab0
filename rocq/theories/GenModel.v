(** Model of differential operators given by arbitrary coefficients:
    [LinearDifferentialOperator] itself ([linfuncops/diffops/_lindiffop.py]) and
    [SelectOutput] ([linfuncops/_select_output.py]), applied to functions, covariance
    functions, stacked covariance functions, independent outputs and stacked functions.
    An operator object is its coefficients [coeffs RF] (DiffopModel). *)
From Coq Require Import List Reals Bool Arith ZArith.
From Verif Require Import Base NdArray FunExprModel DiffopModel LfoModel KernelModel ShapedModel.
Import ListNotations.
Open Scope R_scope.

(** [LinearDifferentialOperator.__init__] (_lindiffop.py:27-42) *)
Definition mk_ldo (c : coeffs RF) (dom cod : shape) : result (coeffs RF) :=
  if negb (shape_eqb (c_dom c) dom) then Err ValueError
  else if negb (shape_eqb (c_cod c) cod) then Err ValueError
  else Ok c.

(** The shape of [a\[idx\]] for an array of the given shape and integer indices *)
Fixpoint picked (sh : shape) (idx : list Z) : result shape :=
  match idx, sh with
  | [], _ => Ok sh
  | z :: idx', n :: sh' => if ((- Z.of_nat n <=? z) && (z <? Z.of_nat n))%Z then picked sh' idx' else Err IndexError
  | _ :: _, [] => Err IndexError
  end.
(** [SelectOutput.__init__] (_select_output.py:10-23): the output codomain shape it sets.
    [np.empty(shape, dtype=\[\])\[idx\]] is handed to probnum's [as_shape]: a record without
    fields is an empty sequence, an array of such records is not a sequence of integers
    unless it has no entries. *)
Definition select_cod (cod : shape) (idx : oidx) : result shape :=
  bind (picked cod (match idx with OInt z => [z] | OTup l => l end)) (fun s =>
  match s with [] | O :: _ => Ok [] | S _ :: _ => Err TypeError end).

(** A summand of [to_sum] and [_to_sum_no_jax]: the coefficient, the multi-index and the
    index of the output that is differentiated. *)
Record term := Term { t_scalar : R; t_mi : mi; t_idx : list Z }.
(** [SumLinearFunctionOperator] reads its first summand (linfuncops/_arithmetic.py:65-70) *)
Definition summands_of {A} (l : list A) : result (list A) := match l with [] => Err IndexError | _ => Ok l end.
(** One summand (_lindiffop.py:66-75, 90-99); the composition requires that the selected
    output is a number (linfuncops/_arithmetic.py:113-117). *)
Definition gen_term (cod : shape) (i : list Z) (e : mi * R) : result term :=
  match i with
  | [] => Ok (Term (snd e) (fst e) i)
  | _ => bind (select_cod cod (OTup i)) (fun s => if shape_eqb s [] then Ok (Term (snd e) (fst e) i) else Err AssertionError)
  end.
(** [to_sum], [_to_sum_no_jax] (_lindiffop.py:54-101) *)
Definition gen_terms (c : coeffs RF) : result (list (list term)) :=
  bind (mapM (fun '(i, inn) => bind (mapM (gen_term (c_cod c) i) inn) summands_of) (c_dict c)) summands_of.
(** The same for operators on real-valued functions, as an operator object; [pdop] is the
    class of the partial derivatives. *)
Definition gen_lfo (pdop : mi -> dop) (c : coeffs RF) : result lfo :=
  bind (mapM (fun '(_, inn) => mk_sum (map (fun '(a, x) => o_scale x (ODiff (pdop a))) inn)) (c_dict c)) mk_sum.

(** ** On functions *)
(** [self.to_sum()(f.jax, argnum=0)] (_lindiffop.py:145-148): the values of the
    [JaxSumFunction] it gives.  A partial derivative of order zero returns the method
    itself (_partial_derivative.py:55-59), which cannot be multiplied by a number; the
    selection of outputs has no rule for methods. *)
Definition gen_jax (c : coeffs RF) (f : array -> array) : result (array -> R) :=
  bind (gen_terms c) (fun ts =>
  bind (mapM (mapM (fun t =>
          match t_idx t with
          | [] => if (mi_order (t_mi t) =? 0)%nat then Err TypeError
                  else bind (jax_fallback (DPartial (t_mi t)) (fun x => f x [])) (fun g => Ok (fun x => t_scalar t * g x))
          | _ => Err NotImplementedError
          end)) ts) (fun gs =>
  Ok (fun x => rsum (map (fun inn => rsum (map (fun g => g x) inn)) gs)))).
(** [self(f)] (_lindiffop.py:103-143, _linfuncop.py:72-91).  The flag says that the result
    contains a [JaxLambdaFunction] around a function object (see [gen_eval]). *)
Fixpoint gen_call (fuel : nat) (c : coeffs RF) (f : fn) : result (fn * bool) :=
  match fuel with
  | O => Err RecursionError
  | S n =>
      or_else (or_else
        match f with
        | FSum gs => bind (mapM (gen_call n c) gs) (fun rs => bind (jax_sum_of (map fst rs)) (fun g => Ok (g, existsb snd rs)))
        | FScaled s _ => bind (gen_call n c f) (fun '(g, b) => Ok (FScaled s g, b))
        | FZero _ _ => Ok (FZero (c_dom c) [], false)
        | _ => Err NotImplementedError
        end
        (match c_cod c with
         | [] => bind (gen_lfo DPartialNoJax c) (fun L => bind (call n L f) (fun g => Ok (g, false)))
         | _ => bind (gen_terms c) (fun _ => Err NotImplementedError)
         end))
        (if negb (shape_eqb (in_shape f) (c_dom c)) then Err ValueError
         else if negb (shape_eqb (out_shape f) (c_cod c)) then Err ValueError
         else bind (gen_jax c (feval f)) (fun g => Ok (FOther (c_dom c) [] (fun x _ => g x), true)))
  end.
(** Evaluating such a result at the points [p i] of a batch: [jnp.vectorize]
    (functions/_jax.py:62-89) traces the function object unless all axes of the batch have
    one entry, and [Function.__call__] of probnum does not accept tracers. *)
Definition gen_eval (r : fn * bool) (traced : bool) (batch : shape) (p : index -> array) : result (index -> R) :=
  if snd r && (traced || existsb (fun d => negb (d =? 1)%nat) batch) then Err TypeError
  else Ok (fun i => feval (fst r) (p i) []).

(** ** On covariance functions *)
(** [None] is a [JaxLambdaCovarianceFunction] around a [JaxSumFunction], which takes one
    argument instead of two (_registry.py (covfuncs, diffops) 22-28), or a covariance
    function that contains one. *)
Definition gen_scale (s : R) (k : option cov) : result (option cov) :=
  match k with Some k => bind (cov_scale s k) (fun r => Ok (Some r)) | None => Ok None end.
Definition gen_covsum (ks : list (option cov)) : result (option cov) :=
  let somes := flat_map (fun k => match k with Some k => [k] | None => [] end) ks in
  if forallb (fun k => match k with Some _ => true | None => false end) ks
  then bind (mk_covsum somes) (fun r => Ok (Some r))
  else match somes with [] => Ok None | _ => bind (mk_covsum somes) (fun _ => Ok None) end.
(** [self._jax_fallback(k.jax, argnum=argnum)] *)
Definition gen_cov_jax (c : coeffs RF) : result (option cov) :=
  bind (gen_terms c) (fun ts =>
  if existsb (existsb (fun t => (mi_order (t_mi t) =? 0)%nat)) ts then Err TypeError else Ok None).
(** [self(k, argnum=argnum)] for the covariance functions of KernelModel, which have scalar
    outputs (_registry.py (covfuncs, diffops) 15-28, _lindiffop.py:131-143,
    covfuncs/linfuncops/_registry.py:14-32) *)
Fixpoint gen_ccall (fuel : nat) (c : coeffs RF) (k : cov) (argnum : nat) : result (option cov) :=
  match fuel with
  | O => Err RecursionError
  | S n =>
      if negb (is_cov k) then Err Unmodelled else
      bind (validate (c_dom c) (c_cod c) k argnum) (fun _ =>
      or_else (or_else
        match k with
        | CScaled s k' => bind (gen_ccall n c k' argnum) (gen_scale s)
        | CSum ks => bind (mapM (fun k' => gen_ccall n c k' argnum) ks) gen_covsum
        | _ => Err NotImplementedError
        end
        (bind (gen_lfo DPartialNoJax c) (fun L => bind (ccall n L k argnum) (fun r => Ok (Some r)))))
        (gen_cov_jax c))
  end.
(** Evaluating the result at two points *)
Definition gen_ceval (k : option cov) (x0 x1 : array) : result R :=
  match k with Some k => Ok (ceval k x0 x1) | None => Err TypeError end.

(** ** On stacked covariance functions *)
(** What comes out: one covariance function or a stack. *)
Inductive gout := GOne (k : option cov) | GStack (sh : shape) (l : list (option cov)) (oi : nat).
(** [functools.reduce(operator.add, (f(x) for x in l))] (linfuncops/_arithmetic.py:97-102) *)
Definition reduce_calls {A} (f : A -> result cov) (l : list A) : result cov :=
  match l with
  | [] => Err TypeError
  | x :: l' => fold_left (fun acc y => bind acc (fun a => bind (f y) (cov_add a))) l' (f x)
  end.
(** [covfuncs\[idx\]] for an array of covariance functions and a complete index *)
Definition wrap (n : nat) (z : Z) : nat := Z.to_nat (if (z <? 0)%Z then z + Z.of_nat n else z)%Z.
Definition wrap_index (sh : shape) (idx : list Z) : index := map (fun '(n, z) => wrap n z) (combine sh idx).
Definition pick (sh : shape) (l : list cov) (idx : list Z) : result cov :=
  bind (picked sh idx) (fun _ => match nth_error l (ravel sh (wrap_index sh idx)) with Some k => Ok k | None => Err IndexError end).
(** A scaled partial derivative of a selected output (linfuncops/_arithmetic.py:37-39,
    126-132, covfuncs/linfuncops/_registry.py:82-89) *)
Definition term_call (fuel : nat) (sh : shape) (l : list cov) (argnum : nat) (t : term) : result cov :=
  bind (pick sh l (t_idx t)) (fun k =>
  bind (ccall fuel (ODiff (DPartialNoJax (t_mi t))) k argnum) (cov_scale (t_scalar t))).
(** [self(k, argnum=argnum)] for a [StackCovarianceFunction] of the covariance functions
    [l] with scalar outputs, all with inputs of shape [insh], stacked along the output
    [oi] (_registry.py (covfuncs, diffops) 15-28, covfuncs/linfuncops/_registry.py:34-50,
    covfuncs/_utils.py:6-38).  Without a rule for the selected output, jax follows, which
    has no rule for selecting outputs.  Stacks of shape [()] are not modelled. *)
Definition gen_stack (fuel : nat) (c : coeffs RF) (insh sh : shape) (l : list cov) (oi argnum : nat) : result gout :=
  if shape_eqb sh [] then Err Unmodelled
  else if (1 <? argnum)%nat then Err ValueError
  else if negb (shape_eqb insh (c_dom c)) then Err ValueError
  else if negb (shape_eqb (if (argnum =? oi)%nat then sh else []) (c_cod c)) then Err ValueError
  else if (argnum =? oi)%nat
       then bind (gen_terms c) (fun ts => bind (reduce_calls (reduce_calls (term_call fuel sh l argnum)) ts) (fun k => Ok (GOne (Some k))))
       else bind (mapM (fun k => gen_ccall fuel c k argnum) l) (fun rs => Ok (GStack sh rs oi)).

(** ** On independent outputs and stacked functions *)
(** [self(k, argnum=argnum)] for an [IndependentMultiOutputCovarianceFunction] of [m]
    outputs with inputs of shape [insh]: the selection of an output requires an [int]
    (covfuncs/linfuncops/_registry.py:92-120). *)
Definition gen_independent (c : coeffs RF) (insh : shape) (m argnum : nat) : result gout :=
  if (1 <? argnum)%nat then Err ValueError
  else if negb (shape_eqb insh (c_dom c)) then Err ValueError
  else if negb (shape_eqb [m] (c_cod c)) then Err ValueError
  else bind (gen_terms c) (fun _ => Err AssertionError).
(** [self(f)] for a [StackedFunction] (functions/linfuncops/_registry.py:8-13) and an
    operator on functions with several outputs *)
Definition gen_stacked (c : coeffs RF) (s : stacked RF) : result (func RF) :=
  match c_cod c with
  | [] => Err Unmodelled
  | _ => bind (gen_terms c) (fun ts =>
         match ts with (t :: _) :: _ => bind (select_output (OTup (t_idx t)) s) (fun _ => Err Unmodelled) | _ => Err IndexError end)
  end.
