(** Integrals over boxes: iterated integrals over the sides. *)
From Coq Require Import List Reals.
From Coquelicot Require Import Coquelicot.
From Verif Require Import Base NdArray.
Import ListNotations.
Open Scope R_scope.
(** [v] is the integral of [g] over the box with the given bounds. *)
Fixpoint box_integral (bs : list (R * R)) (g : list R -> R) (v : R) : Prop :=
  match bs with
  | [] => v = g []
  | (l, u) :: bs' => exists h, (forall t, l <= t <= u -> box_integral bs' (fun x => g (t :: x)) (h t)) /\ is_RInt h l u v
  end.
(** A point of the box as an array of shape [(d,)] *)
Definition coords (x : list R) : index -> R := fun i => nth (hd 0%nat i) x 0.
(** The bounds of a box in the order lower, upper *)
Definition ordered (bs : list (R * R)) : Prop := forall l u, In (l, u) bs -> l <= u.
