(** Specification: the L2 projection onto the span of functions [phi 0], ..., [phi (n-1)] on
    an interval. *)
From Coq Require Import List Reals.
From Coquelicot Require Import Coquelicot.
From Verif Require Import FemSpec.
Import ListNotations.
Open Scope R_scope.

(** [w] is the vector of inner products of [f] with the functions; or, normalised, the
    coefficients of the best approximation: the residual is orthogonal to all of them. *)
Definition l2_projection (n : nat) (phi : nat -> R -> R) (lo hi : R) (normalized : bool) (f : R -> R) (w : nat -> R) : Prop :=
  forall i, (i < n)%nat ->
  if normalized
  then is_RInt (fun x => phi i x * (f x - sum_upto n (fun j => w j * phi j x))) lo hi 0
  else is_RInt (fun x => phi i x * f x) lo hi (w i).
(** The projection applied to argument [a] of a kernel, the other argument being [t]. *)
Definition l2_in (a : nat) (n : nat) (phi : nat -> R -> R) (lo hi : R) (normalized : bool) (k : R -> R -> R) (t : R) (w : nat -> R) : Prop :=
  l2_projection n phi lo hi normalized (fun u => match a with O => k u t | _ => k t u end) w.
(** One projection applied to each argument. *)
Definition l2_both (n0 n1 : nat) (phi0 phi1 : nat -> R -> R) (lo0 hi0 lo1 hi1 : R) (nz0 nz1 : bool) (k : R -> R -> R) (w : nat -> nat -> R) : Prop :=
  exists g : R -> nat -> R,
    (forall x, l2_in 1 n1 phi1 lo1 hi1 nz1 k x (g x)) /\
    forall j, (j < n1)%nat -> l2_projection n0 phi0 lo0 hi0 nz0 (fun x => g x j) (fun i => w i j).
