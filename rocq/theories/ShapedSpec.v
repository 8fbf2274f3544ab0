(** What affine and stacked functions should compute (C54). *)
From Coq Require Import List Arith ZArith Bool.
From Verif Require Import Base NdArray NdData ShapedModel.
Import ListNotations.
Local Open Scope nat_scope.

(** A vectorised function [ev] from points of shape [insh] to values of shape [outsh]:
    each point of a batch of any shape is mapped by [v]. *)
Definition vectorises {F : fops} (insh outsh : shape) (ev : nd F -> result (nd F)) (v : (index -> F) -> index -> F) : Prop :=
  forall x batch, nshape x = batch ++ insh ->
  exists a, ev x = Ok a /\ nshape a = batch ++ outsh /\
    forall b j, valid_index batch b -> valid_index outsh j ->
      nat_ a (b ++ j) = v (fun i => nat_ x (b ++ i)) j.
(** A value depends on the entries of its point only. *)
Definition local {F : fops} (insh outsh : shape) (v : (index -> F) -> index -> F) : Prop :=
  forall p q j, valid_index outsh j -> (forall i, valid_index insh i -> p i = q i) -> v p j = v q j.

(** [A p + b] for a matrix of [n] columns, a number and a vector [A] *)
Definition affine_matrix {F : fops} (n : nat) (A b : nd F) (p : index -> F) (j : index) : F :=
  fadd (fsum (map (fun k => fmul (nat_ A (j ++ [k])) (p [k])) (seq 0 n))) (nat_ b j).
Definition affine_number {F : fops} (A b : nd F) (p : index -> F) (j : index) : F :=
  fadd (fmul (nat_ A j) (p [])) (nat_ b j).

(** The axis [a] of the stacked outputs of [d] axes each that [axis=z] means. *)
Definition axis_is (z : Z) (d a : nat) : Prop :=
  a <= d /\ (z = Z.of_nat a \/ z = Z.of_nat a - Z.of_nat d - 1)%Z.
(** Position [i] of a tuple of [n] entries. *)
Definition position_is (i : Z) (n k : nat) : Prop :=
  k < n /\ (i = Z.of_nat k \/ i = Z.of_nat k - Z.of_nat n)%Z.
(** [j] with [k] inserted before position [a] *)
Definition with_axis (a k : nat) (j : list nat) : list nat := firstn a j ++ [k] ++ skipn a j.
