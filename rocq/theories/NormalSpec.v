(** Gaussian conditioning, from the joint distribution of the unknown and the
    data. *)
From mathcomp Require Import all_ssreflect all_algebra.
From Verif Require Import Base Block2Spec NormalModel.
Set Implicit Arguments. Unset Strict Implicit. Unset Printing Implicit Defensive.
Import GRing.Theory Num.Theory.
Local Open Scope ring_scope.

Section Spec.
Variable F : realFieldType.

(** The matrix a transform stands for. *)
Definition tmx n p (T : transform F n p) : 'M[F]_(p, n) :=
  match T in transform _ _ q return 'M[F]_(q, n) with TNone => 1%:M | TVec a => a | TMat _ A => A end.
Definition noise_mean p (b : option (normal F p)) : 'cV[F]_p := if b is Some c then nmean c else 0.
Definition noise_cov p (b : option (normal F p)) : 'M[F]_p := if b is Some c then ncov c else 0.
(** The combination that is rejected: a vector as transform and no noise. *)
Definition rejected n p (b : option (normal F p)) (T : transform F n p) : bool :=
  match b, T with None, TVec _ => true | _, _ => false end.
(** Covariance matrix of the data [A x + b] (plus damping). *)
Definition gram n p (S : 'M[F]_n) (A : 'M[F]_(p, n)) (N : 'M[F]_p) (damp : F) : 'M[F]_p := A *m S *m A^T + N + damp%:M.

(** The post is the conditional distribution of x ~ (m, S) given data with mean
    [mu], covariance [G] and covariance [C] with x: there is a regression matrix
    [K] leaving a residual [x - K y] uncorrelated with the data; the mean is
    shifted by [K (y - mu)] and the covariance is that of the residual. *)
Definition is_conditional n p (prior : normal F n) (mu : 'cV[F]_p) (G : 'M[F]_p) (C : 'M[F]_(n, p)) (y : 'cV[F]_p)
    (post : normal F n) : Prop :=
  exists K : 'M[F]_(n, p),
    [/\ C - K *m G = 0,
        nmean post = nmean prior + K *m (y - mu) &
        ncov post = ncov prior - K *m C^T - C *m K^T + K *m G *m K^T].
(** Loewner order. *)
Definition loewner n (A B : 'M[F]_n) : Prop := possemidef (B - A).
End Spec.
