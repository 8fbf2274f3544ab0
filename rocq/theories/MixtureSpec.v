(** The density of an equally weighted mixture of truncated normal distributions (C55). *)
From Coq Require Import List Arith Reals.
From Coquelicot Require Import Coquelicot.
From Verif Require Import Base NdArray NdData.
Import ListNotations.
Local Open Scope R_scope.

Definition normal_density (mu sigma t : R) : R := exp (- (t - mu) ^ 2 / (2 * sigma ^ 2)) / sqrt (2 * PI * sigma ^ 2).
(** Restricted to the interval and normalised there. *)
Definition truncated_density (lo hi mu sigma t : R) : R :=
  normal_density mu sigma t / RInt (normal_density mu sigma) lo hi.
(** The average over [n] components. *)
Definition mixture_density (lo hi : R) (n : nat) (mu sigma : nat -> R) (t : R) : R :=
  fold_right Rplus 0 (map (fun k => truncated_density lo hi (mu k) (sigma k) t) (seq 0 n)) / INR n.

(** An array of [n] parameters or one parameter for all components. *)
Definition parameters (a : nd RF) (n : nat) (v : nat -> R) : Prop :=
  (nshape a = [n] /\ forall k, (k < n)%nat -> nat_ a [k] = v k) \/
  (nshape a = [] /\ forall k, (k < n)%nat -> nat_ a [] = v k).

(** [n] means and standard deviations, or one for all components; at least one of the two
    is an array of [n] numbers, or there is one component. *)
Definition components (means stds : nd RF) (n : nat) (mu sigma : nat -> R) : Prop :=
  (0 < n)%nat /\ parameters means n mu /\ parameters stds n sigma /\
  (n = 1%nat \/ nshape means = [n] \/ nshape stds = [n]) /\ forall k, (k < n)%nat -> sigma k <> 0.
