(** Specification of piecewise functions: strictly increasing knots and the
    cells between them. *)
From Coq Require Import List Reals.
Import ListNotations.
Open Scope R_scope.

Definition increasing (xs : list R) : Prop :=
  forall i j, (i < j < length xs)%nat -> nth i xs 0 < nth j xs 0.

(** The point [x] belongs to cell [i]: [x_0, x_1] for i = 0, (x_i, x_{i+1}]
    otherwise. *)
Definition in_cell (xs : list R) (i : nat) (x : R) : Prop :=
  match i with
  | O => nth 0 xs 0 <= x <= nth 1 xs 0
  | S _ => nth i xs 0 < x <= nth (S i) xs 0
  end.

(** Linear interpolation between (l, yl) and (r, yr). *)
Definition interpolate (l r yl yr x : R) : R := yl + (x - l) * ((yr - yl) / (r - l)).
