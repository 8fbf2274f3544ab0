(** What a covariance between random variables of shapes [s0] and [s1] with
    entries [g i j] looks like from outside. *)
From Coq Require Import List Arith.
From Verif Require Import Base NdArray NdData BlockModel CovModel.
Import ListNotations.

Section Spec.
Context {F : fops}.

Definition array_shows (a : nd F) (s0 s1 : shape) (g : index -> index -> F) : Prop :=
  nshape a = s0 ++ s1 /\
  forall i j, valid_index s0 i -> valid_index s1 j -> nat_ a (i ++ j) = g i j.
(** C order: the flat position of multi-index [i] is [ravel s0 i]. *)
Definition matrix_shows (m : mat F) (s0 s1 : shape) (g : index -> index -> F) : Prop :=
  nrows m = size s0 /\ ncols m = size s1 /\
  forall i j, valid_index s0 i -> valid_index s1 j -> entry m (ravel s0 i) (ravel s1 j) = g i j.
Definition shows (c : covariance F) (s0 s1 : shape) (g : index -> index -> F) : Prop :=
  cshape0 c = s0 /\ cshape1 c = s1 /\
  (exists a, carray c = Ok a /\ array_shows a s0 s1 g) /\
  (exists m, cmatrix c = Ok m /\ matrix_shows m s0 s1 g) /\
  (exists m, clinop c = Ok m /\ matrix_shows m s0 s1 g).
End Spec.
