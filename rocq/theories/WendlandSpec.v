(** The Wendland functions (Wendland, Scattered Data Approximation, Definition 9.11). *)
From Coq Require Import Reals.
From Coquelicot Require Import Coquelicot.
Open Scope R_scope.

(** [phi_l(r) = (1 - r)^l], and [k] times the operator [(I f)(r) = int_r^1 t f(t) dt]. *)
Fixpoint wend (l k : nat) (r : R) : R :=
  match k with O => (1 - r) ^ l | S k' => RInt (fun t => t * wend l k' t) r 1 end.
(** The radial profile normalised at 0, as a function on the whole line. *)
Definition wend_radial (l k : nat) (r : R) : R :=
  if Rle_dec (Rabs r) 1 then wend l k (Rabs r) / wend l k 0 else 0.
(** [f] is [n] times continuously differentiable on the line. *)
Definition cont_diff (n : nat) (f : R -> R) : Prop :=
  forall m, (m <= n)%nat -> (forall x, ex_derive_n f m x) /\ (forall x, continuous (Derive_n f m) x).
