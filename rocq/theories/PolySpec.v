(** Specification of polynomials, independent of the model's helpers: the
    value of the formal sum  c_0 + c_1 x + c_2 x^2 + ...  *)
From Coq Require Import List.
From Verif Require Import Base.
Import ListNotations.

Section Spec.
Context {F : fops}.

(** Value of the power sum with coefficients [cs] starting at exponent [i]. *)
Fixpoint power_sum_from (i : nat) (cs : list F) (x : F) : F :=
  match cs with
  | [] => f0
  | c :: cs' => fadd (fmul c (fpow x i)) (power_sum_from (S i) cs' x)
  end.
Definition power_sum (cs : list F) (x : F) : F := power_sum_from 0 cs x.

(** Coefficient of exponent [i] (0 beyond the stored tuple). *)
Fixpoint coefficient (cs : list F) (i : nat) : F :=
  match cs, i with
  | [], _ => f0
  | c :: _, 0%nat => c
  | _ :: cs', S j => coefficient cs' j
  end.

(** Coefficient of exponent [k] in the product of two formal sums. *)
Fixpoint convolution_upto (i : nat) (a b : nat -> F) (k : nat) : F :=
  match i with
  | 0%nat => fmul (a 0%nat) (b k)
  | S j => fadd (convolution_upto j a b k) (fmul (a i) (b (k - i)))
  end.
Definition convolution (a b : nat -> F) (k : nat) : F := convolution_upto k a b k.
End Spec.
