(** Specification of the hat basis: nodes and integrals. *)
From Coq Require Import List Reals.
From Coquelicot Require Import Coquelicot.
From Verif Require Import PiecewiseSpec.
Import ListNotations.
Open Scope R_scope.

(** Piecewise linear function through (l, 0), (m, 1), (r, 0), zero outside. *)
Definition hat (l m r x : R) : R :=
  if Rle_dec x l then 0
  else if Rle_dec x m then (x - l) / (m - l)
  else if Rle_dec x r then (r - x) / (r - m)
  else 0.

Definition sum_upto (n : nat) (f : nat -> R) : R := fold_right Rplus 0 (map f (seq 0 n)).

Definition uniform (g : list R) (h : R) : Prop :=
  forall i, (S i < length g)%nat -> nth (S i) g 0 - nth i g 0 = h.
