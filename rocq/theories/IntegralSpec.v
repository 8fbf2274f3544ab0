(** Specification: integrals over one or both arguments of a kernel on the real line. *)
From Coq Require Import Reals.
From Coquelicot Require Import Coquelicot.
From Verif Require Import KernelSpec.
Open Scope R_scope.

(** [v] is the integral of the kernel over argument [a], with the other argument [t]. *)
Definition integral_in (a : nat) (k : R -> R -> R) (lo hi t v : R) : Prop :=
  is_RInt (fun u => match a with O => k u t | _ => k t u end) lo hi v.
(** [v] is the integral over [lo0, hi0] in the first and [lo1, hi1] in the second argument,
    in either order. *)
Definition integral_both (k : R -> R -> R) (lo0 hi0 lo1 hi1 v : R) : Prop :=
  (exists f, (forall x, integral_in 1 k lo1 hi1 x (f x)) /\ is_RInt f lo0 hi0 v) /\
  (exists f, (forall y, integral_in 0 k lo0 hi0 y (f y)) /\ is_RInt f lo1 hi1 v).
(** The Matérn kernel of smoothness [p + 1/2] and lengthscale [l] on the real line. *)
Definition matern_line (p : nat) (l x y : R) : R :=
  matern_half p (sqrt (2 * INR p + 1) * (Rabs (x - y) / l)).
