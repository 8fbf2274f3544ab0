(** What a covariance with finitely many features is: a bilinear form in the features. *)
From Coq Require Import List Arith Reals.
From Verif Require Import Base NdArray NdData.
Import ListNotations.

Section Spec.
Context {F : fops}.
(** [u^T S v] for vectors of length [n] *)
Definition bilinear (n : nat) (S : nat -> nat -> F) (u v : nat -> F) : F :=
  fsum (map (fun k => fsum (map (fun l => fmul (fmul (u k) (S k l)) (v l)) (seq 0 n))) (seq 0 n)).
(** [u^T v] *)
Definition dot (n : nat) (u v : nat -> F) : F := fsum (map (fun k => fmul (u k) (v k)) (seq 0 n)).
(** An array of the given shape and entries. *)
Definition array_is (a : nd F) (b : shape) (g : index -> F) : Prop :=
  nshape a = b /\ forall i, valid_index b i -> nat_ a i = g i.
End Spec.

(** Positive semidefinite matrices and covariance functions: every finite linear
    combination has a non-negative variance. *)
Definition psd_matrix (n : nat) (S : nat -> nat -> RF) : Prop := forall w : nat -> RF, (0 <= bilinear n S w w)%R.
Definition psd_kernel {X : Type} (K : X -> X -> RF) : Prop :=
  forall l : list (R * X), (0 <= @fsum RF (map (fun p => @fsum RF (map (fun q => (fst p * fst q * K (snd p) (snd q))%R) l)) l))%R.
