(** Ranges of floating-point numbers, and points that are far apart. *)
From Coq Require Import List Reals.
From Coq.Floats Require Import SpecFloat.
From Verif Require Import Base NdArray FunExprModel FloatModel FloatRound.
(** Not negative: zeros count, NaN does not. *)
Definition nonneg (a : spec_float) : Prop :=
  match a with S754_zero _ | S754_infinity false | S754_finite false _ _ => True | _ => False end.
Definition nonpos (a : spec_float) : Prop :=
  match a with S754_zero _ | S754_infinity true | S754_finite true _ _ => True | _ => False end.
Definition positive_f (a : spec_float) : Prop := match a with S754_finite false _ _ => True | _ => False end.
Definition nonzero_f (a : spec_float) : Prop := match a with S754_finite _ _ _ => True | _ => False end.
Definition pos (a : spec_float) : Prop := positive_f a \/ a = S754_infinity false.
(** Between 0 and 1, by the comparisons of the format *)
Definition in_unit (a : spec_float) : Prop := SFleb (S754_zero false) a = true /\ SFleb a (SFone 53 1024) = true.
(** The product of an infinite number and a zero: an invalid operation *)
Definition inf_zero (a b : spec_float) : Prop :=
  (a = S754_infinity false /\ exists s, b = S754_zero s) \/ (b = S754_infinity false /\ exists s, a = S754_zero s).
(** Scale factors that are rounded to numbers other than zero, points of finite numbers *)
Definition good_scale (lb : lib) (sh : shape) (scale : array) : Prop :=
  forall i, In i (all_indices sh) -> valid (l_cst lb (scale i)) /\ nonzero_f (l_cst lb (scale i)).
Definition good_point (sh : shape) (x : farr) : Prop := forall i, In i (all_indices sh) -> valid (x i) /\ fin (x i).
(** The square of a scaled difference of coordinates; two points are far apart if one overflows. *)
Definition term (lb : lib) (scale : array) (x y : farr) (i : index) : spec_float :=
  let d := SFmul 53 1024 (SFsub 53 1024 (x i) (y i)) (l_cst lb (scale i)) in SFmul 53 1024 d d.
Definition far (lb : lib) (sh : shape) (scale : array) (x y : farr) : Prop :=
  exists i, In i (all_indices sh) /\ term lb scale x y i = S754_infinity false.
(** The library's [exp] of a number that is not positive is between 0 and 1. *)
Definition decaying (lb : lib) : Prop :=
  forall a, valid a -> nonpos a -> valid (l_exp lb a) /\ in_unit (l_exp lb a).
