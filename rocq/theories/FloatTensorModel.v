(** Model of the evaluation of [TensorProduct] ([randprocs/covfuncs/_tensor_product.py]) in IEEE 754 arithmetic, with
    the programs of [AdCovModel] for the factors, run as in [FloatModel].
    Simplified: both points given; the constructor is in [TensorModel.mk_tensor]. *)
From Coq Require Import List Bool Arith ZArith.
From Coq.Floats Require Import SpecFloat.
From Verif Require Import Base NdArray KernelModel AdModel AdCovModel FloatModel.
Import ListNotations.

(** [x[..., i]] for a point: a point without axes *)
Definition coordinate (x : farr) (i : nat) : farr := fun _ => x [i].
(** [evaluate_dimensionwise_jax] (_tensor_product.py:98-108) *)
Definition dimensionwise (lb : lib) (ks : list cov) (x0 x1 : farr) : result (list spec_float) :=
  mapM (fun '(i, k) => bind (cov_prog k) (fun p => Ok (run64 lb (coordinate x0 i) (coordinate x1 i) p))) (combine (seq 0 (length ks)) ks).
(** [TensorProduct._evaluate_jax] (_tensor_product.py:50-54): the product, from the left *)
Definition tensor_jax (lb : lib) (ks : list cov) (x0 x1 : farr) : result spec_float :=
  bind (dimensionwise lb ks x0 x1) (fun vs =>
    match vs with [] => Err TypeError | v :: vs' => Ok (fold_left (SFmul 53 1024) vs' v) end).
