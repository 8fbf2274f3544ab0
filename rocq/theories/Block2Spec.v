(** Positive definiteness, triangularity and the contracts used for the 2x2
    block operator. *)
From mathcomp Require Import all_ssreflect all_algebra.
From Verif Require Import Base Block2Model.
Set Implicit Arguments. Unset Strict Implicit. Unset Printing Implicit Defensive.
Import GRing.Theory Num.Theory.
Local Open Scope ring_scope.

Section Spec.
Variable F : realFieldType.

(** The number v^T A v. *)
Definition qform n (A : 'M[F]_n) (v : 'cV[F]_n) : F := (v^T *m A *m v) 0 0.
Definition posdef n (A : 'M[F]_n) : Prop := A^T = A /\ forall v, v != 0 -> 0 < qform A v.
Definition possemidef n (A : 'M[F]_n) : Prop := A^T = A /\ forall v, 0 <= qform A v.
Definition lower_tri n (A : 'M[F]_n) : Prop := forall i j : 'I_n, (i < j)%N -> A i j = 0.
Definition upper_tri n (A : 'M[F]_n) : Prop := forall i j : 'I_n, (j < i)%N -> A i j = 0.

(** A Cholesky routine: lower-triangular factor of every positive definite matrix. *)
Definition chol_spec (chol : forall n : nat, 'M[F]_n -> 'M[F]_n) : Prop :=
  forall n (A : 'M[F]_n), posdef A -> lower_tri (chol n A) /\ chol n A *m (chol n A)^T = A.

(** Flags describe the matrix truthfully. *)
Definition truthful n (A : 'M[F]_n) (f : flags) : Prop :=
  [/\ f_sym f -> A^T = A, f_pd f -> posdef A, f_lo f -> lower_tri A & f_up f -> upper_tri A].
Definition truthful2 m n (M : block2 F m n) : Prop :=
  truthful (b2_todense M) (bfl M) /\ (is_block_diagonal M -> mx (bB M) = 0 /\ mx (bC M) = 0).
End Spec.
