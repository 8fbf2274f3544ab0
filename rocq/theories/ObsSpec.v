(** Which observation arguments are accepted, and what they mean. *)
From Coq Require Import List Arith Bool.
From Verif Require Import Base NdArray NdData ObsModel.
Import ListNotations.

(** The output shape of the measurement functional described by [X] and [L]:
    points have the shape of the domain, batched; outputs come first. *)
Inductive measures (pin pout : shape) : option shape -> larg -> shape -> bool -> Prop :=
| m_functional out e : measures pin pout None (LFunctional out e) out e
| m_operator odom ocod batch : measures pin pout (Some (batch ++ odom)) (LOperator odom ocod) (ocod ++ batch) false
| m_points batch : measures pin pout (Some (batch ++ pin)) LNone (pout ++ batch) true.
(** The noise fits. *)
Definition noise_fits {F : fops} (out : shape) (b : option (barg F)) : Prop :=
  match b with None => True | Some BOther => False | Some (BNormal m _) => nshape m = out | Some (BConstant v) => nshape v = out end.
(** The shape the observations must have: values at points of a multi-output
    process are given points first. *)
Definition wanted (pout out : shape) (points : bool) (s : shape) : Prop :=
  if points then exists batch, s = batch ++ pout /\ out = pout ++ batch else s = out.
(** Mean and covariance of the noise. *)
Definition bmean {F : fops} (b : option (barg F)) (i : index) : F :=
  match b with Some (BNormal m _) => nat_ m i | Some (BConstant v) => nat_ v i | _ => f0 end.
Definition bcov {F : fops} (b : option (barg F)) (i j : nat) : F :=
  match b with Some (BNormal _ c) => c i j | _ => f0 end.
