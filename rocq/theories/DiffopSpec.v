(** What coefficient dictionaries and multi-indices mean. *)
From Coq Require Import List Arith ZArith Bool.
From Verif Require Import Base NdArray DiffopModel.
Import ListNotations.

(** The multi-index is the array of the given shape with entries [g]. *)
Definition mi_is (a : mi) (sh : shape) (g : index -> nat) : Prop :=
  mi_shape a = sh /\ length (mi_arr a) = size sh /\
  forall i, valid_index sh i -> nth_error (mi_arr a) (ravel sh i) = Some (g i).
Definition mi_wf (a : mi) : Prop := length (mi_arr a) = size (mi_shape a).
(** [n] times the unit vector of the axis [i]. *)
Definition axis (i : index) (n : nat) : index -> nat := fun j => if list_eq_dec Nat.eq_dec j i then n else 0.

(** Dictionary invariants. *)
Definition wf_coeffs {F : fops} (c : coeffs F) : Prop :=
  NoDup (map fst (c_dict c)) /\
  forall i inn, In (i, inn) (c_dict c) ->
    length i = length (c_cod c) /\ Forall2 (fun x y => (x < Z.of_nat y)%Z) i (c_cod c) /\
    NoDup (map fst inn) /\ forall a x, In (a, x) inn -> mi_shape a = c_dom c.

(** The coefficient of the derivative [a] of the output component [i]: the sum of
    all stored values for this pair. *)
Definition mi_dec (a b : mi) : {a = b} + {a <> b}.
Proof. decide equality; apply (list_eq_dec Nat.eq_dec). Defined.
Definition coeff_at {F : fops} (c : coeffs F) (i : list Z) (a : mi) : F :=
  fold_right (fun '(i', inn) acc =>
    if list_eq_dec Z.eq_dec i' i
    then fadd (fold_right (fun '(a', x) acc' => if mi_dec a' a then fadd x acc' else acc') f0 inn) acc
    else acc) f0 (c_dict c).

(** Entry of a multi-index. *)
Definition mi_entry (a : mi) (i : index) : nat := nth (ravel (mi_shape a) i) (mi_arr a) 0.
