(** Model of tensor products of covariance functions and of grids
    ([randprocs/covfuncs/_tensor_product.py]) and of differential operators applied to them
    ([randprocs/covfuncs/linfuncops/diffops/_tensor_product.py], [_registry.py] 31-72).

    Factors are the covariance functions of [CrossModel] (any covariance function obeying
    probnum's contract is a [KLeaf]); a factor's [_evaluate] is identified with its call,
    whose shape checks pass.  The KeOps lazy tensors are in [LazyModel]. *)
From Coq Require Import List Arith Bool.
From Verif Require Import Base NdArray NdData BlockModel CovModel CrossModel DiffopModel.
Import ListNotations.

Section Tensor.
Context {F : fops}.

(** ** Arrays *)
(** [x\[..., i\]] *)
Definition take_last (x : nd F) (i : nat) : result (nd F) :=
  match rev (nshape x) with
  | [] => Err IndexError
  | n :: r => if i <? n then Ok (Nd (rev r) (fun l => nat_ x (l ++ [i]))) else Err IndexError
  end.
(** [x1\[..., i\] if x1 is not None else None] *)
Definition take_last_opt (x : option (nd F)) (i : nat) : result (option (nd F)) :=
  match x with None => Ok None | Some y => bind (take_last y i) (fun z => Ok (Some z)) end.
(** [enumerate] *)
Definition enumerate {A} (l : list A) : list (nat * A) := combine (seq 0 (length l)) l.
(** [a * b] of arrays of equal shape; other shapes are not needed here. *)
Definition nd_mul (a b : nd F) : result (nd F) :=
  if shape_eqb (nshape a) (nshape b) then Ok (nd_map2 fmul a b) else Err Unmodelled.
(** [pn.linops.Kronecker] *)
Definition kron (a b : mat F) : mat F :=
  mkmat (nrows a * nrows b) (ncols a * ncols b) (fun i j =>
    fmul (entry a (i / nrows b) (j / ncols b)) (entry b (i mod nrows b) (j mod ncols b))).

(** ** Grids *)
Inductive indexing := IJ | XY | OtherIndexing.
(** [np.meshgrid] of the factors ([copy=True], [sparse=False]): every factor is
    flattened; ["xy"] exchanges the first two axes. *)
Definition mesh_shape (ix : indexing) (s : shape) : shape :=
  match ix, s with XY, a :: b :: r => b :: a :: r | _, _ => s end.
Definition mesh_index (ix : indexing) (l : index) : index :=
  match ix, l with XY, a :: b :: r => b :: a :: r | _, _ => l end.
Definition np_meshgrid (factors : list (nd F)) (ix : indexing) : result (list (nd F)) :=
  match ix with
  | OtherIndexing => Err ValueError
  | _ => Ok (map (fun '(m, f) => Nd (mesh_shape ix (map (fun g => size (nshape g)) factors))
                                    (fun l => nat_ f (unravel (nshape f) (nth m (mesh_index ix l) 0))))
                 (enumerate factors))
  end.
(** [np.stack(arrays, axis=-1)] *)
Definition np_stack_last (l : list (nd F)) : result (nd F) :=
  match l with
  | [] => Err ValueError
  | a :: _ =>
      if forallb (fun b => shape_eqb (nshape b) (nshape a)) l
      then Ok (Nd (nshape a ++ [length l]) (fun i => nat_ (nth (last i 0) l a) (removelast i)))
      else Err ValueError
  end.
(** An array of points as an argument: a plain array, or an instance of
    [TensorProductGrid] with its attribute [factors].  The class has no
    [__array_finalize__], so an array derived from a grid is of the same class but has
    no such attribute. *)
Inductive parg := PArr (x : nd F) | PGrid (x : nd F) (factors : option (list (nd F))).
Definition parg_arr (a : parg) : nd F := match a with PArr x | PGrid x _ => x end.
(** [TensorProductGrid.__new__] (133-149) *)
Definition mk_grid (factors : list (nd F)) (ix : indexing) : result parg :=
  bind (np_meshgrid factors ix) (fun ms => bind (np_stack_last ms) (fun x => Ok (PGrid x (Some factors)))).
(** Slicing, reshaping or computing with an argument. *)
Definition parg_map (f : nd F -> nd F) (a : parg) : parg := match a with PArr x => PArr (f x) | PGrid x _ => PGrid (f x) None end.
(** [x.factors] *)
Definition parg_factors (a : parg) : result (list (nd F)) :=
  match a with PGrid _ (Some l) => Ok l | PGrid _ None | PArr _ => Err AttributeError end.
Definition is_grid (a : parg) : bool := match a with PGrid _ _ => true | PArr _ => false end.

(** ** Tensor products *)
(** [TensorProduct.__init__] (18-38): [len(factors) < 0] never holds. *)
Definition mk_tensor (l : list (kfun F)) : result (list (kfun F)) :=
  if negb (forallb (fun k => shape_eqb (k_in k) []) l) then Err ValueError
  else match l with
       | [] => Err IndexError
       | c :: _ =>
           if forallb (fun k => shape_eqb (k_out0 k) (k_out0 c) && shape_eqb (k_out1 k) (k_out1 c)) l
           then Ok l else Err ValueError
       end.
(** [input_shape], [output_shape_0], [output_shape_1] (34-38) *)
Definition tp_in (l : list (kfun F)) : shape := [length l].
Definition tp_out0 (l : list (kfun F)) : shape := match l with [] => [] | c :: _ => k_out0 c end.
Definition tp_out1 (l : list (kfun F)) : shape := match l with [] => [] | c :: _ => k_out1 c end.
(** [evaluate_dimensionwise] (85-95), [evaluate_dimensionwise_jax] (98-108) *)
Definition evaluate_dimensionwise (call : kfun F -> nd F -> option (nd F) -> result (nd F))
    (l : list (kfun F)) (x0 : nd F) (x1 : option (nd F)) : result (list (nd F)) :=
  mapR (fun '(i, k) => bind (take_last x0 i) (fun y0 => bind (take_last_opt x1 i) (fun y1 => call k y0 y1))) (enumerate l).
(** [_evaluate] (44-48), [_evaluate_jax] (50-54) in probnum's [__call__] and in [jax]
    ([_jax.py] 36-57) *)
Definition tp_finish (l : list (kfun F)) (b : shape) (a : nd F) : result (nd F) :=
  if shape_eqb (nshape a) (b ++ tp_out0 l ++ tp_out1 l) then Ok a else Err AssertionError.
Definition tp_call (l : list (kfun F)) (x0 : nd F) (x1 : option (nd F)) : result (nd F) :=
  bind (check_shapes (tp_in l) x0 x1) (fun b =>
  bind (bind (evaluate_dimensionwise (@k_call F) l x0 x1) (reduce nd_mul)) (tp_finish l b)).
Definition tp_jax (l : list (kfun F)) (x0 : nd F) (x1 : option (nd F)) : result (nd F) :=
  bind (check_shapes (tp_in l) x0 x1) (fun b =>
  bind (bind (evaluate_dimensionwise (@k_jax F) l x0 x1) (reduce nd_mul)) (tp_finish l b)).

(** [CovarianceFunction.linop] of probnum: the matrix of all pairs of points, outputs
    first, by evaluating at [x0\[:, None\]] and [x1\[None, :\]]. *)
Definition all_pairs (call : nd F -> option (nd F) -> result (nd F)) (insh out0 out1 : shape) (x0 : nd F) (x1 : option (nd F)) : result (mat F) :=
  bind (batch_shape insh x0) (fun b0 => bind (batch_shape insh (second x0 x1)) (fun b1 =>
  let n0 := size b0 in let n1 := size b1 in
  bind (call (Nd ([n0; 1] ++ insh) (fun l => nat_ x0 (unravel b0 (nth 0 l 0) ++ skipn 2 l)))
             (Some (Nd ([1; n1] ++ insh) (fun l => nat_ (second x0 x1) (unravel b1 (nth 1 l 0) ++ skipn 2 l)))))
    (fun a => Ok (mkmat (size out0 * n0) (size out1 * n1) (fun r c =>
       nat_ a ([r mod n0; c mod n1] ++ unravel out0 (r / n0) ++ unravel out1 (c / n1))))))).
(** [functools.reduce(pn.linops.Kronecker, factors)] *)
Definition reduce_kron : list (mat F) -> result (mat F) := reduce (fun a b => Ok (kron a b)).
(** [linop] (64-82) *)
Definition tp_linop (l : list (kfun F)) (x0 : parg) (x1 : option parg) : result (mat F) :=
  if is_grid x0 && match x1 with None => true | Some y => is_grid y end then
    bind (match x1 with
          | Some y => bind (parg_factors y) (fun fs => Ok (map Some fs))
          | None => bind (parg_factors x0) (fun fs => Ok (map (fun _ => None) fs))
          end) (fun x1_factors =>
    bind (parg_factors x0) (fun x0_factors =>
    bind (mapR (fun '(idx, (f0, f1)) => match nth_error l idx with None => Err IndexError | Some k => k_linop k f0 f1 end)
               (enumerate (combine x0_factors x1_factors))) reduce_kron))
  else all_pairs (tp_call l) (tp_in l) (tp_out0 l) (tp_out1 l) (parg_arr x0) (option_map parg_arr x1).

(** ** Differential operators on tensor products *)
(** An operator: a [PartialDerivative] (which has an [order]) or any other
    [LinearDifferentialOperator], with its coefficients. *)
Inductive tdop := TPartial (a : mi) | TOther (c : coeffs F).
Definition td_coeffs (L : tdop) : result (coeffs F) := match L with TPartial a => partial_derivative F a | TOther c => Ok c end.
(** [input_domain_shape], [input_codomain_shape] ([linfuncops/diffops/_lindiffop.py] 27-42) *)
Definition td_dom (L : tdop) : shape := match L with TPartial a => mi_shape a | TOther c => c_dom c end.
Definition td_cod (L : tdop) : shape := match L with TPartial a => [] | TOther c => c_cod c end.
(** [order] ([linfuncops/diffops/_partial_derivative.py] 39-41) *)
Definition td_order (L : tdop) : result nat := match L with TPartial a => Ok (mi_order a) | TOther _ => Err AttributeError end.

(** Keys of the dictionaries: the dimension and the two orders. *)
Definition key_eqb (a b : index * (nat * nat)) : bool :=
  shape_eqb (fst a) (fst b) && (fst (snd a) =? fst (snd b)) && (snd (snd a) =? snd (snd b)).
(** [TensorProduct_LinDiffOp_LinDiffOp]: [k.factors], [L0], [L1], [_L0kL1s] and the
    summands with their scalars. *)
Record dtensor := mkdt { dt_k : list (kfun F); dt_L0 : tdop; dt_L1 : tdop;
  dt_table : list (index * (nat * nat) * kfun F); dt_summands : list (F * list (kfun F)) }.

Section Diff.
(** [PartialDerivative(a)(k, argnum=argnum)] for a factor [k] and a multi-index of shape
    [()] (the subject of C33-C36). *)
Variable pdf : nat -> mi -> kfun F -> result (kfun F).
(** One factor (47-62): [PD.get_factor_at_dim(domain_idx)] of the operator with the single
    entry [order] *)
Definition dt_pd (a : mi) (i : index) : result mi :=
  bind (mi_get a i) (fun o => bind (from_index i (mi_shape a) o) (fun p => get_factor_at_dim p i)).
Definition dt_factor (ks : list (kfun F)) (a b : mi) (i : index) : result (kfun F) :=
  bind (dt_pd a i) (fun p0 => bind (dt_pd b i) (fun p1 =>
  match nth_error ks (nth 0 i 0) with
  | None => Err IndexError
  | Some k => bind (pdf 1 p1 k) (pdf 0 p0)
  end)).
(** The loop over the dimensions (46-66) *)
Fixpoint dt_dims (ks : list (kfun F)) (a b : mi) (is : list index) (table : list (index * (nat * nat) * kfun F))
    : result (list (kfun F) * list (index * (nat * nat) * kfun F)) :=
  match is with
  | [] => Ok ([], table)
  | i :: is' =>
      bind (dt_factor ks a b i) (fun f =>
      bind (mi_get a i) (fun o0 => bind (mi_get b i) (fun o1 =>
      bind (dt_dims ks a b is' (dset key_eqb table (i, (o0, o1)) f)) (fun '(fs, t) => Ok (f :: fs, t)))))
  end.
(** The loop over the pairs of multi-indices (43-67) *)
Fixpoint dt_pairs (ks : list (kfun F)) (pairs : list (mi * F * (mi * F))) (table : list (index * (nat * nat) * kfun F))
    : result (list (F * list (kfun F)) * list (index * (nat * nat) * kfun F)) :=
  match pairs with
  | [] => Ok ([], table)
  | ((a, c0), (b, c1)) :: ps =>
      bind (dt_dims ks a b (all_indices (mi_shape a)) table) (fun '(fs, t) =>
      bind (mk_tensor fs) (fun tp =>
      bind (dt_pairs ks ps t) (fun '(ss, t') => Ok ((fmul c0 c1, tp) :: ss, t'))))
  end.
(** [__init__] (22-70); probnum reads the shapes off the first summand. *)
Definition dt_init (ks : list (kfun F)) (L0 L1 : tdop) : result dtensor :=
  bind (bind (td_coeffs L0) (fun c => c_get c [])) (fun C0 =>
  bind (bind (td_coeffs L1) (fun c => c_get c [])) (fun C1 =>
  bind (dt_pairs ks (list_prod C0 C1) []) (fun '(ss, t) =>
  match ss with [] => Err IndexError | _ => Ok (mkdt ks L0 L1 t ss) end))).

(** [_compute_res] (84-112): every factor is computed once per dimension and pair of
    orders.  [None] is the initial zero. *)
Section Compute.
Context {V : Type} (compute : kfun F -> index -> result V) (mul : V -> V -> result V) (scale : F -> V -> V) (add : V -> V -> result V).
Fixpoint cr_factors (table : list (index * (nat * nat) * kfun F)) (a b : mi) (is : list index) (memo : list (index * (nat * nat) * V))
    : result (list V * list (index * (nat * nat) * V)) :=
  match is with
  | [] => Ok ([], memo)
  | i :: is' =>
      bind (mi_get a i) (fun o0 => bind (mi_get b i) (fun o1 =>
      let key := (i, (o0, o1)) in
      bind (match dget key_eqb memo key with
            | Some v => Ok (v, memo)
            | None =>
                match dget key_eqb table key with
                | None => Err KeyError
                | Some k => bind (compute k i) (fun v => Ok (v, dset key_eqb memo key v))
                end
            end) (fun '(v, memo') =>
      bind (cr_factors table a b is' memo') (fun '(vs, m) => Ok (v :: vs, m)))))
  end.
Fixpoint cr_pairs (table : list (index * (nat * nat) * kfun F)) (insh : shape) (pairs : list (mi * F * (mi * F)))
    (memo : list (index * (nat * nat) * V)) (res : option V) : result (option V) :=
  match pairs with
  | [] => Ok res
  | ((a, c0), (b, c1)) :: ps =>
      bind (cr_factors table a b (all_indices insh) memo) (fun '(vs, memo') =>
      bind (reduce mul vs) (fun p =>
      let t := scale (fmul c0 c1) p in
      bind (match res with None => Ok t | Some r => add r t end) (fun r =>
      cr_pairs table insh ps memo' (Some r))))
  end.
Definition compute_res (d : dtensor) : result (option V) :=
  bind (bind (td_coeffs (dt_L0 d)) (fun c => c_get c [])) (fun C0 =>
  bind (bind (td_coeffs (dt_L1 d)) (fun c => c_get c [])) (fun C1 =>
  cr_pairs (dt_table d) (tp_in (dt_k d)) (list_prod C0 C1) [] None)).
End Compute.

(** The result; the number zero that an operator without coefficients leaves is not
    needed here ([dt_init] rejects it). *)
Definition cr_value {V} (r : option V) : result V := match r with Some v => Ok v | None => Err Unmodelled end.
(** [_evaluate] (114-119), [_evaluate_jax] (121-126) in [__call__] and [jax] *)
Definition dt_out0 (d : dtensor) : shape := match dt_summands d with [] => [] | (_, l) :: _ => tp_out0 l end.
Definition dt_out1 (d : dtensor) : shape := match dt_summands d with [] => [] | (_, l) :: _ => tp_out1 l end.
Definition dt_evaluate (call : kfun F -> nd F -> option (nd F) -> result (nd F)) (d : dtensor) (x0 : nd F) (x1 : option (nd F)) : result (nd F) :=
  bind (check_shapes (tp_in (dt_k d)) x0 x1) (fun b =>
  bind (bind (compute_res (fun k i => bind (take_last x0 (nth 0 i 0)) (fun y0 => bind (take_last_opt x1 (nth 0 i 0)) (fun y1 => call k y0 y1)))
                 nd_mul (fun s => nd_map (fmul s)) nd_add d) cr_value) (fun a =>
  if shape_eqb (nshape a) (b ++ dt_out0 d ++ dt_out1 d) then Ok a else Err AssertionError)).
Definition dt_call : dtensor -> nd F -> option (nd F) -> result (nd F) := dt_evaluate (@k_call F).
Definition dt_jax : dtensor -> nd F -> option (nd F) -> result (nd F) := dt_evaluate (@k_jax F).
(** [linop] (140-156): with a second grid, [x1_factors = x0.factors]. *)
Definition dt_linop (d : dtensor) (x0 : parg) (x1 : option parg) : result (mat F) :=
  if is_grid x0 && match x1 with None => true | Some y => is_grid y end then
    bind (match x1 with
          | Some _ => bind (parg_factors x0) (fun fs => Ok (map Some fs))
          | None => bind (parg_factors x0) (fun fs => Ok (map (fun _ => None) fs))
          end) (fun x1_factors =>
    bind (compute_res (fun k i =>
            bind (parg_factors x0) (fun x0_factors =>
            match nth_error x0_factors (nth 0 i 0), nth_error x1_factors (nth 0 i 0) with
            | Some f0, Some f1 => k_linop k f0 f1
            | _, _ => Err IndexError
            end)) (fun a b => Ok (kron a b)) mat_scale mat_add_checked d) cr_value)
  else all_pairs (dt_call d) (tp_in (dt_k d)) (dt_out0 d) (dt_out1 d) (parg_arr x0) (option_map parg_arr x1).

(** ** Dispatch *)
(** [TNotImplemented]: the object [NotImplemented] is returned. *)
Inductive tkern := TBase (l : list (kfun F)) | TDiff (d : dtensor) | TNotImplemented.
(** [validate_covfunc_transformation] ([covfuncs/_utils.py] 6-38) *)
Definition td_validate (L : tdop) (insh out0 out1 : shape) (argnum : nat) : result unit :=
  if 1 <? argnum then Err ValueError
  else if negb (shape_eqb insh (td_dom L)) then Err ValueError
  else if negb (shape_eqb (if argnum =? 0 then out0 else out1) (td_cod L)) then Err ValueError
  else Ok tt.
(** [PartialDerivative(MultiIndex(np.zeros(k.input_shape_0)))] *)
Definition td_identity (insh : shape) : tdop := TPartial (mi_of insh (fun _ => 0)).
(** [LinearDifferentialOperator.__call__] on the two classes ([_registry.py] 31-72); a
    [PartialDerivative] of order zero returns its argument
    ([linfuncops/diffops/_partial_derivative.py] 55-59). *)
Definition td_register (L : tdop) (k : tkern) (argnum : nat) : result tkern :=
  match k with
  | TBase l =>
      bind (td_validate L (tp_in l) (tp_out0 l) (tp_out1 l) argnum) (fun _ =>
      bind (dt_init l (if argnum =? 0 then L else td_identity (tp_in l)) (if argnum =? 1 then L else td_identity (tp_in l)))
        (fun d => Ok (TDiff d)))
  | TDiff d =>
      bind (td_validate L (tp_in (dt_k d)) (dt_out0 d) (dt_out1 d) argnum) (fun _ =>
      bind (td_order (if argnum =? 0 then dt_L0 d else dt_L1 d)) (fun o =>
      if o =? 0 then
        bind (dt_init (dt_k d) (if argnum =? 0 then L else dt_L0 d) (if argnum =? 0 then dt_L1 d else L)) (fun d' => Ok (TDiff d'))
      else Ok TNotImplemented))
  | TNotImplemented => Err Unmodelled
  end.
Definition td_apply (L : tdop) (k : tkern) (argnum : nat) : result tkern :=
  match L with
  | TPartial a => if mi_order a =? 0 then Ok k else td_register L k argnum
  | TOther _ => td_register L k argnum
  end.
End Diff.
End Tensor.
Arguments parg F : clear implicits.
Arguments tdop F : clear implicits.
Arguments dtensor F : clear implicits.
Arguments tkern F : clear implicits.
