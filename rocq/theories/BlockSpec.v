(** What it means to display blocks, stated with offsets only. *)
From Coq Require Import List Arith.
From Verif Require Import Base BlockModel.
Import ListNotations.

Section Spec.
Context {F : fops}.

(** Equal shape and equal entries inside it. *)
Definition mat_eq (a b : mat F) : Prop :=
  nrows a = nrows b /\ ncols a = ncols b /\
  forall i j, i < nrows a -> j < ncols a -> entry a i j = entry b i j.

Definition total (l : list nat) : nat := fold_right Nat.add 0 l.
(** Start of segment [i]. *)
Definition offset (l : list nat) (i : nat) : nat := total (firstn i l).

(** Rectangular layout with row heights [hs] and column widths [ws]. *)
Definition layout (blocks : list (list (mat F))) (hs ws : list nat) : Prop :=
  hs <> [] /\ ws <> [] /\ length blocks = length hs /\
  forall i row, nth_error blocks i = Some row -> length row = length ws /\
    forall j b, nth_error row j = Some b -> nth_error hs i = Some (nrows b) /\ nth_error ws j = Some (ncols b).

(** [M] is the matrix that shows block (i, j) at its offsets. *)
Definition displays (M : mat F) (blocks : list (list (mat F))) (hs ws : list nat) : Prop :=
  nrows M = total hs /\ ncols M = total ws /\
  forall i j row b, nth_error blocks i = Some row -> nth_error row j = Some b ->
    forall r c, r < nrows b -> c < ncols b -> entry M (offset hs i + r) (offset ws j + c) = entry b r c.

(** Matrix product. *)
Definition is_product (a x y : mat F) : Prop :=
  nrows y = nrows a /\ ncols y = ncols x /\
  forall i j, i < nrows a -> j < ncols x ->
    entry y i j = fsum (map (fun k => fmul (entry a i k) (entry x k j)) (seq 0 (ncols a))).
End Spec.
