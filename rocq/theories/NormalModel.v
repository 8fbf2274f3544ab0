(** Model of [randvars/_normal.py].

    Normal random vectors are a mean vector and a covariance matrix over an
    arbitrary ordered field. *)
From mathcomp Require Import all_ssreflect all_algebra.
From Verif Require Import Base.
Set Implicit Arguments. Unset Strict Implicit. Unset Printing Implicit Defensive.
Import GRing.Theory Num.Theory.
Local Open Scope ring_scope.

Section Model.
Variable F : realFieldType.

(** [pn.randvars.Normal] *)
Record normal (n : nat) := Normal { nmean : 'cV[F]_n; ncov : 'M[F]_n }.

(** The argument [transform]: absent, one-dimensional or two-dimensional
    ([_normal.py] 12, 26-32). *)
Inductive transform (n : nat) : nat -> Type :=
  | TNone : transform n n
  | TVec (a : 'rV[F]_n) : transform n 1
  | TMat p (A : 'M[F]_(p, n)) : transform n p.

(** Predictive before noise ([_normal.py] 34-42). *)
Definition predictive n p (prior : normal n) (T : transform n p) : normal p :=
  match T in transform _ q return normal q with
  | TNone => prior
  | TVec a => Normal (a *m nmean prior) (a *m ncov prior *m a^T)
  | TMat _ A => Normal (A *m nmean prior) (A *m ncov prior *m A^T)
  end.
(** [crosscov_pred_prior] ([_normal.py] 47-48) *)
Definition crosscov n p (prior : normal n) (T : transform n p) : 'M[F]_(p, n) :=
  match T in transform _ q return 'M[F]_(q, n) with
  | TNone => ncov prior
  | TVec a => a *m ncov prior
  | TMat _ A => A *m ncov prior
  end.
(** probnum's sum of independent normals ([_normal.py] 44-45). *)
Definition add_noise p (pred : normal p) (noise : option (normal p)) : normal p :=
  match noise with
  | None => pred
  | Some b => Normal (nmean pred + nmean b) (ncov pred + ncov b)
  end.

(** Lower Cholesky factor, any function with the contract [Block2Spec.chol_spec]. *)
Variable chol : forall n : nat, 'M[F]_n -> 'M[F]_n.
(** [scipy.linalg.cho_solve((L, True), b)]: forward and backward substitution. *)
Definition cho_solve p n (L : 'M[F]_p) (b : 'M[F]_(p, n)) : 'M[F]_(p, n) := invmx L^T *m (invmx L *m b).

(** [condition_normal_on_observations] ([_normal.py] 8-68).  [damp] is the
    damping probnum adds to the diagonal before the Cholesky factorisation behind
    [cov_cholesky] (its configuration value [covariance_inversion_damping]).
    A one-dimensional transform indexes the noise with [None] (26-29): the
    absence of noise then raises TypeError. *)
Definition is_1d n p (T : transform n p) : bool := if T is TVec _ then true else false.
Definition condition (damp : F) n p (prior : normal n) (observations : 'cV[F]_p) (noise : option (normal p))
    (T : transform n p) : result (normal n) :=
  if is_1d T && ~~ isSome noise then Err TypeError
  else
    let pred := add_noise (predictive prior T) noise in
    let gram_cho := chol (ncov pred + damp%:M) in
    let cross := crosscov prior T in
    let gain := (cho_solve gram_cho cross)^T in
    Ok (Normal (nmean prior + gain *m (observations - nmean pred)) (ncov prior - cross^T *m gain^T)).
End Model.
