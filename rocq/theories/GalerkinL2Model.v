(** Model of the projection with which Galerkin covariance functions are built in the
    package: the L2 projection onto linear finite elements, as a [projection] of
    [GalerkinModel]. *)
From Coq Require Import List Arith Reals.
From Coquelicot Require Import Coquelicot.
From Verif Require Import Base NdArray CrossModel ParamModel GalerkinModel FemModel.
Import ListNotations.

(** The basis as a feature function ([functions/bases/_fem.py] 34-37, 59-73): scalar
    inputs, one output per element. *)
Definition fem_feature (b : basis) : feature RF :=
  mkfeat [] [b_len b] (fun (x : point RF) (k : index) => basis_eval b (x []) (nth 0%nat k 0%nat)) (fun _ => false).
(** [L2Projection_UnivariateLinearInterpolationBasis(basis, normalized)]
    ([linfunctls/projections/l2/_fem.py] 14-76): domain, basis and flag, and the
    coefficients it computes from the integrals over the supports.  Simplified: exact
    integrals; nothing is said about functions for which one of them does not exist. *)
Definition is_fem_projection (b : basis) (normalized : bool) (P : projection RF) : Prop :=
  pj_in P = [] /\ pj_n P = b_len b /\ pj_basis P = fem_feature b /\ pj_normalized P = normalized /\
  forall (f : point RF -> RF) (res : nat -> R), quad_rhs b (fun t => f (fun _ => t)) res ->
    normalizer_gives b normalized res (pj_fun P f).
