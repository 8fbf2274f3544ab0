(** What an array of covariances holds. *)
From Coq Require Import List Reals.
From Verif Require Import Base NdArray NdData.
Import ListNotations.

(** An array of shape [b] with the entries [g]. *)
Definition entries (a : nd RF) (b : shape) (g : index -> R) : Prop :=
  nshape a = b /\ forall i, valid_index b i -> nat_ a i = g i.
