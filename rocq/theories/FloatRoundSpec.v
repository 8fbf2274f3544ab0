(** What "accurate up to rounding" means for the evaluation of a polynomial, with real numbers only. *)
From Coq Require Import Reals List.
Import ListNotations.
Open Scope R_scope.
(** Unit roundoff and half the smallest positive number of binary64 *)
Definition u64 : R := / 2 ^ 53.
Definition eta64 : R := / 2 ^ 1075.
(** [c0 + c1 x + c2 x^2 + ...] *)
Fixpoint poly_at (cs : list R) (x : R) : R := match cs with [] => 0 | c :: cs' => c + x * poly_at cs' x end.
Fixpoint geometric (n : nat) (q : R) : R := match n with O => 0 | S n' => 1 + q * geometric n' q end.
(** The bound of Horner's method for degree [n]: relative to the polynomial of the absolute values,
    and an absolute part from underflow. *)
Definition horner_bound (cs : list R) (x : R) : R :=
  let n := (length cs - 1)%nat in
  ((1 + u64) ^ (2 * n) - 1) * poly_at (map Rabs cs) (Rabs x)
  + eta64 * ((2 + u64) * geometric n ((1 + u64) ^ 2 * Rabs x)).

(** ** Programs *)
From Verif Require Import Base NdArray FunExprModel KernelModel AdModel AdSpec.
(** A bound of the error of a program in an arithmetic with relative error [u] and absolute error
    [eta] per operation, relative error [ue] of [exp] and absolute error [ue] of [sin] and [cos],
    from the exact values: errors of the
    operands pass through an operation and its own rounding is added. *)
Section Bound.
Variables (u eta ue : R) (e : points).
Notation V := (pval e).
Definition rounded (err exact : R) : R := (1 + u) * err + u * Rabs exact + eta.
Definition mul_err (a ea b eb : R) : R := Rabs a * eb + Rabs b * ea + ea * eb.
Fixpoint err (p : prog) : R :=
  match p with
  | PVar _ _ => 0
  | PCst c => rounded 0 c
  | PAdd p q => rounded (err p + err q) (V p + V q)
  | PSub p q => rounded (err p + err q) (V p - V q)
  | PMul p q => rounded (mul_err (V p) (err p) (V q) (err q)) (V p * V q)
  | PDiv p q => rounded ((err p * Rabs (V q) + Rabs (V p) * err q) / (Rabs (V q) * (Rabs (V q) - err q))) (V p / V q)
  | PNeg p => err p
  | PExp p => (1 + ue) * (exp (V p) * (exp (err p) - 1)) + ue * exp (V p) + eta
  | PSqrt p => rounded (sqrt (err p)) (sqrt (V p))
  | PPow p _ => rounded (mul_err (V p) (err p) (V p) (err p)) (V p * V p)
  | PWhere r p q => if Rle_dec (V r) 1 then err p else err q
  | PSin p | PCos p => err p + ue
  end.
(** The programs this is about: only squares as powers, no division by a number that could be zero,
    no cut-off that could go the other way. *)
Fixpoint in_scope (p : prog) : Prop :=
  match p with
  | PVar _ _ | PCst _ => True
  | PAdd p q | PSub p q | PMul p q => in_scope p /\ in_scope q
  | PDiv p q => in_scope p /\ in_scope q /\ err q < Rabs (V q)
  | PNeg p | PExp p | PSqrt p | PSin p | PCos p => in_scope p
  | PPow p n => in_scope p /\ n = 2%Z
  | PWhere r p q => in_scope r /\ err r < Rabs (V r - 1) /\ (if Rle_dec (V r) 1 then in_scope p else in_scope q)
  end.
End Bound.
