(** What differential operators on both arguments of a product of functions of one
    variable give. *)
From Coq Require Import List Arith.
From Verif Require Import Base NdArray NdData BlockModel CovModel CovSpec CrossModel CrossSpec DiffopModel DiffopSpec TensorModel TensorSpec.
Import ListNotations.

Section Spec.
Context {F : fops}.
(** The terms [c * d^a] of the operator [L] on functions of [n] variables. *)
Definition terms (L : tdop F) (n : nat) (C : list (mi * F)) : Prop :=
  C <> [] /\ (forall a c, In (a, c) C -> mi_wf a /\ mi_shape a = [n]) /\
  match L with
  | TPartial a => C = [(a, f1)]
  | TOther c => In ([], C) (c_dict c) /\ NoDup (map fst (c_dict c))
  end.
(** [G m i j] is the function of the factor [m] differentiated [i] times in the first and
    [j] times in the second argument. *)
Definition diff_value {A} (n : nat) (C0 C1 : list (mi * F)) (G : nat -> nat -> nat -> A -> A -> F) (x y : nat -> A) : F :=
  fsum (map (fun '(a, c0) => fsum (map (fun '(b, c1) =>
    fmul (fmul c0 c1) (tensor n (fun m => G m (mi_entry a [m]) (mi_entry b [m])) x y)) C1)) C0).
(** All univariate derivatives that occur are available from [pdf] and have the values
    [G]. *)
Definition factors_differentiable (pdf : nat -> mi -> kfun F -> result (kfun F)) (ks : list (kfun F)) (C0 C1 : list (mi * F))
    (o0 o1 : shape) (G : nat -> nat -> nat -> index -> index -> F -> F -> F) : Prop :=
  ks <> [] /\
  forall a c0 b c1 m k, In (a, c0) C0 -> In (b, c1) C1 -> nth_error ks m = Some k ->
    exists k1 k', pdf 1 (MI [] [mi_entry b [m]]) k = Ok k1 /\ pdf 0 (MI [] [mi_entry a [m]]) k1 = Ok k' /\
      has_values k' o0 o1 (G m (mi_entry a [m]) (mi_entry b [m])).
End Spec.
