(** What a differential operator given by coefficients means. *)
From Coq Require Import List Reals Bool Arith ZArith.
From Verif Require Import Base NdArray FunExprModel DiffopModel DiffopSpec LfoSpec KernelSpec.
Import ListNotations.
Open Scope R_scope.

(** The output a Python index names: negative integers count from the end. *)
Definition output_at (cod : shape) (i : list Z) : index := map (fun '(z, n) => Z.to_nat (z mod Z.of_nat n)) (combine i cod).
(** The operator [{i: {a: y}}] maps [F] to the sum of [y * D^a F_i]. *)
Definition csem (c : coeffs RF) (F : array -> array) (x : array) : R :=
  total (map (fun '(i, inn) => total (map (fun '(a, y) => y * pderiv a (fun z => F z (output_at (c_cod c) i)) x) inn)) (c_dict c)).
(** Coefficients for every output are given, and the indices name outputs. *)
Definition in_range (z : Z) (n : nat) : Prop := (- Z.of_nat n <= z < Z.of_nat n)%Z.
Definition coeffs_ok (c : coeffs RF) : Prop :=
  c_dict c <> [] /\
  forall i inn, In (i, inn) (c_dict c) -> inn <> [] /\ Forall2 in_range i (c_cod c) /\
    forall a y, In (a, y) inn -> mi_wf a /\ mi_shape a = c_dom c.
(** All the multi-indices satisfy [P]. *)
Definition multi_indices (P : mi -> Prop) (c : coeffs RF) : Prop :=
  forall i inn a y, In (i, inn) (c_dict c) -> In (a, y) inn -> P a.
Definition proper (a : mi) : Prop := mi_order a <> 0%nat.
(** Derivatives of the squared exponential covariance function that the code knows, and
    those it does not know. *)
Definition known_order (sh : shape) (a : mi) : Prop := mi_order a = 0%nat \/ (sh = [] /\ (mi_order a <= 2)%nat).
Definition unknown_order (sh : shape) (a : mi) : Prop := mi_order a <> 0%nat /\ (size sh <> 1%nat \/ (2 < mi_order a)%nat).
