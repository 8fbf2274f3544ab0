(** What a lazy tensor of covariances holds. *)
From Coq Require Import List Reals.
From Verif Require Import Base NdArray NdData CovModel CrossModel BatchModel.
Import ListNotations.
Open Scope R_scope.

(** One number for each of the [n0] first and [n1] second points: [v i j]. *)
Definition lazy_values (L : lazy) (n0 n1 : nat) (v : nat -> nat -> R) : Prop :=
  l_dim L = 1%nat /\ forall i j, (i < n0)%nat -> (j < n1)%nat -> l_at L i j 0%nat = v i j.
(** The lazy tensors of the covariance function [k] of points on the line hold the values of [g] at all
    pairs of points. *)
Definition factor_lazy {K} (klazy : K -> nd RF -> option (nd RF) -> result lazy) (k : K) (g : R -> R -> R) : Prop :=
  forall y0 y1 n0 n1, nshape y0 = [n0] -> nshape (second y0 y1) = [n1] ->
    exists L, klazy k y0 y1 = Ok L /\ lazy_values L n0 n1 (fun i j => g (nat_ y0 [i]) (nat_ (second y0 y1) [j])).
