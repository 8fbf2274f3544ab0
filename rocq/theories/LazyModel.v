(** Model of the lazy tensors (KeOps) of tensor products of covariance functions, of
    differential operators on them and of Wendland covariance functions
    ([randprocs/covfuncs/_tensor_product.py],
    [randprocs/covfuncs/linfuncops/diffops/_tensor_product.py],
    [randprocs/covfuncs/_wendland.py]), and of the evaluation of the latter on arrays of
    points.

    Lazy tensors are those of [BatchModel].  Simplified: KeOps is installed
    ([_USE_KEOPS]); floats are reals. *)
From Coq Require Import List Reals Bool Arith ZArith.
From Verif Require Import Base NdArray NdData PolyModel PolyClassModel BlockModel CovModel CrossModel ShapedModel DtypeModel
  FunExprModel DiffopModel LfoModel KernelModel BatchModel WendlandModel TensorModel.
Import ListNotations.
Open Scope R_scope.
Local Notation "x <- e ;; k" := (bind e (fun x => k)) (at level 61, e at next level, right associativity).

(** ** Tensor products *)
(** [split_outputs_contiguous] (_tensor_product.py:122-130); [np.ascontiguousarray] keeps the
    entries. *)
Definition split_outputs (x0 : nd RF) (x1 : option (nd RF)) (num_dims : nat) : result (list (nd RF) * list (option (nd RF))) :=
  bind (mapR (take_last x0) (seq 0 num_dims)) (fun x0s =>
  bind (mapR (take_last_opt x1) (seq 0 num_dims)) (fun x1s => Ok (x0s, x1s))).
(** [l\[i\]] *)
Definition item {A} (l : list A) (i : nat) : result A := match nth_error l i with Some a => Ok a | None => Err IndexError end.
Section Factors.
(** [k._keops_lazy_tensor(x0, x1)] of the factors *)
Context {K : Type} (klazy : K -> nd RF -> option (nd RF) -> result lazy).
(** [lazy_tensor_dimensionwise] (_tensor_product.py:111-119) *)
Definition lazy_dimensionwise (ks : list K) (x0s : list (nd RF)) (x1s : list (option (nd RF))) : result (list lazy) :=
  mapR (fun '(i, k) => bind (item x0s i) (fun y0 => bind (item x1s i) (fun y1 => klazy k y0 y1))) (enumerate ks).
(** [TensorProduct._keops_lazy_tensor] (_tensor_product.py:56-62) *)
Definition tp_lazy (ks : list K) (x0 : nd RF) (x1 : option (nd RF)) : result lazy :=
  bind (split_outputs x0 x1 (length ks)) (fun '(x0s, x1s) =>
  bind (lazy_dimensionwise ks x0s x1s) (reduce (lbin Rmult))).
End Factors.
(** [TensorProduct_LinDiffOp_LinDiffOp._keops_lazy_tensor] (diffops/_tensor_product.py:128-138)
    with [_compute_res] (84-112). *)
Definition dt_lazy (klazy : kfun RF -> nd RF -> option (nd RF) -> result lazy) (d : dtensor RF) (x0 : nd RF) (x1 : option (nd RF)) : result lazy :=
  bind (split_outputs x0 x1 (length (dt_k d))) (fun '(x0s, x1s) =>
  bind (compute_res (F := RF) (fun k idx => bind (item x0s (nth 0 idx 0%nat)) (fun y0 => bind (item x1s (nth 0 idx 0%nat)) (fun y1 => klazy k y0 y1)))
          (lbin Rmult) (fun s => lfun (Rmult s)) (lbin Rplus) d) cr_value).

(** ** Wendland covariance functions *)
(** [_scale_factors] (_wendland.py:68-70); the lengthscales are a number ([sc]) or an array of the
    input shape. *)
Definition wl_scale_t (sc : bool) (w : wendland) : tnd := tfun (fun l => 1 / l) (tlen sc (wl_shape w) (wl_len w)).
(** [np.where(r <= 1, a, zeros_like(r))] of arrays of one shape *)
Definition where_le1 (r a : tnd) : tnd :=
  T (t_int a && t_int r) (Nd (t_shape r) (fun i => if Rleb (nat_ (t_arr r) i) 1 then nat_ (t_arr a) i else 0)).
(** [WendlandFunction._evaluate], [_evaluate_jax] (_wendland.py:213-221) *)
Definition wfun_b (m : mode) (p : pypoly) (r : tnd) : result tnd := v <- poly_call m p r ;; Ok (where_le1 r v).
(** [_evaluate] (_wendland.py:72-77), [_evaluate_jax] (79-85) in [__call__] and [jax] *)
Definition wendland_b (m : mode) (sc : bool) (w : wendland) (x0 : tnd) (x1 : option tnd) : result tnd :=
  checked (wl_shape w) (fun x0 x1 => r <- dists m (length (wl_shape w)) (wl_scale_t sc w) x0 x1 ;; wfun_b m (wl_poly w) r) x0 x1.
(** pykeops' [c.ifelse(a, b)]: [a] where [c >= 0]; all of dimension 1, [b] a number *)
Definition lifelse (c a : lazy) (b : R) : result lazy :=
  if (l_dim c =? 1)%nat && (l_dim a =? 1)%nat then Ok (mkL 1 (fun i j k => if Rleb 0 (l_at c i j k) then l_at a i j k else b)) else Err ValueError.
(** [WendlandFunction._evaluate_keops] (_wendland.py:223-226) *)
Definition wfun_lazy (p : pypoly) (r : lazy) : result lazy := v <- lpoly p r ;; lifelse (lfun (fun t => 1 - t) r) v 0.
(** [_keops_lazy_tensor] (_wendland.py:87-99) *)
Definition wendland_lazy (sc : bool) (w : wendland) (x0 : tnd) (x1 : option tnd) : result lazy :=
  r <- ldists (wl_scale_t sc w) x0 (match x1 with Some y => y | None => x0 end) ;; wfun_lazy (wl_poly w) r.
