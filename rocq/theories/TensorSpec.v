(** Products of functions of one variable. *)
From Coq Require Import List Arith Reals.
From Verif Require Import Base NdArray NdData BlockModel CovModel CovSpec CrossModel CrossSpec.
Import ListNotations.

Section Spec.
Context {F : fops}.
Definition fprod (l : list F) : F := fold_right fmul f1 l.
(** [g_0(x_0, y_0) * ... * g_{n-1}(x_{n-1}, y_{n-1})] with the coordinates [x], [y] *)
Definition tensor {A : Type} (n : nat) (g : nat -> A -> A -> F) (x y : nat -> A) : F :=
  fprod (map (fun m => g m (x m) (y m)) (seq 0 n)).
(** The covariance function [k] of points on the line with outputs of shapes [o0], [o1]
    has the values [g], in all views. *)
Record has_values (k : kfun F) (o0 o1 : shape) (g : index -> index -> F -> F -> F) : Prop := {
  hv_in : k_in k = [];
  hv_out0 : k_out0 k = o0;
  hv_out1 : k_out1 k = o1;
  hv_call : forall x0 x1 b, broadcast_shapes (nshape x0) (nshape (second x0 x1)) = Ok b ->
    exists a, k_call k x0 x1 = Ok a /\ cov_array a b o0 o1 (fun i o q =>
      g o q (nat_ x0 (operand_index (nshape x0) i)) (nat_ (second x0 x1) (operand_index (nshape (second x0 x1)) i)));
  hv_jax : forall x0 x1 b, broadcast_shapes (nshape x0) (nshape (second x0 x1)) = Ok b ->
    exists a, k_jax k x0 x1 = Ok a /\ cov_array a b o0 o1 (fun i o q =>
      g o q (nat_ x0 (operand_index (nshape x0) i)) (nat_ (second x0 x1) (operand_index (nshape (second x0 x1)) i)));
  hv_linop : forall x0 x1,
    exists m, k_linop k x0 x1 = Ok m /\ cov_matrix m (nshape x0) (nshape (second x0 x1)) o0 o1 (fun i j o q =>
      g o q (nat_ x0 i) (nat_ (second x0 x1) j)) }.
(** Coordinate [m] of the point number [i] of an array of points. *)
Definition coordinate (x : nd F) (i : index) (m : nat) : F := nat_ x (i ++ [m]).
(** The grid of all combinations of the entries of one-dimensional arrays of the lengths
    [sizes], entries [u m]; the last factor varies fastest. *)
Definition grid_of (x : nd F) (sizes : list nat) (u : nat -> nat -> F) : Prop :=
  nshape x = sizes ++ [length sizes] /\
  forall i m, valid_index sizes i -> m < length sizes -> nat_ x (i ++ [m]) = u m (nth m i 0).
(** Covariance functions [l] with the values [g 0], [g 1], ... *)
Definition tensor_ok (l : list (kfun F)) (o0 o1 : shape) (g : nat -> index -> index -> F -> F -> F) : Prop :=
  l <> [] /\ forall m k, nth_error l m = Some k -> has_values k o0 o1 (g m).
(** Entries of an array in C order; the sizes of arrays. *)
Definition flat (f : nd F) (a : nat) : F := nat_ f (unravel (nshape f) a).
Definition sizes (fs : list (nd F)) : list nat := map (fun f => size (nshape f)) fs.
Definition dnd : nd F := Nd [] (fun _ => f0).
End Spec.
