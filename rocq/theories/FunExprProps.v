(** Property theorem C07. *)
From Coq Require Import List Reals Lra Lia Bool Arith.
From Coquelicot Require Import Coquelicot.
From Verif Require Import Base PolyModel PolyClassModel PolyCalc NdArray
  FunExprModel FunExprSpec FunExprProofs.
Import ListNotations.
Open Scope R_scope.

(** Every expression over functions of common shapes is built without error, has
    those shapes, and evaluates to the meaning of the expression. *)
Theorem C07_expressions : forall e i o,
  (forall f, In f (leaves e) -> fwf f /\ in_shape f = i /\ out_shape f = o) ->
  exists f, build e = Ok f /\ fwf f /\ in_shape f = i /\ out_shape f = o /\
    forall x k, valid_index o k -> feval f x k = meaning e x k.
Proof. exact build_ok. Qed.
Print Assumptions C07_expressions.

Theorem C07_add : forall a b, fwf a -> fwf b -> in_shape a = in_shape b -> out_shape a = out_shape b ->
  exists f, fn_add a b = Ok f /\ fwf f /\ in_shape f = in_shape a /\ out_shape f = out_shape a /\
    forall x k, valid_index (out_shape a) k -> feval f x k = feval a x k + feval b x k.
Proof. exact fn_add_ok. Qed.
Print Assumptions C07_add.

Theorem C07_sub : forall a b, fwf a -> fwf b -> in_shape a = in_shape b -> out_shape a = out_shape b ->
  exists f, fn_sub a b = Ok f /\ fwf f /\ in_shape f = in_shape a /\ out_shape f = out_shape a /\
    forall x k, valid_index (out_shape a) k -> feval f x k = feval a x k - feval b x k.
Proof. exact fn_sub_ok. Qed.
Print Assumptions C07_sub.

Theorem C07_scale : forall s a, fwf a ->
  fwf (fn_scale s a) /\ in_shape (fn_scale s a) = in_shape a /\ out_shape (fn_scale s a) = out_shape a /\
  forall x k, feval (fn_scale s a) x k = scalar_value s * feval a x k.
Proof. exact fn_scale_ok. Qed.
Print Assumptions C07_scale.

Theorem C07_neg : forall a, fwf a ->
  fwf (fn_neg a) /\ in_shape (fn_neg a) = in_shape a /\ out_shape (fn_neg a) = out_shape a /\
  forall x k, feval (fn_neg a) x k = - feval a x k.
Proof. exact fn_neg_ok. Qed.
Print Assumptions C07_neg.

(** Simplifications keep their class: constants stay constants, Zero stays
    Zero, adding Zero returns the other operand, and sums have flat summands. *)
Lemma classes i o v v' s f :
  (exists w, fn_add (FConst i o v) (FConst i o v') = Ok (FConst i o w)) /\
  (exists w, fn_scale s (FConst i o v) = FConst i o w) /\
  fn_scale s (FZero i o) = FZero i o /\
  (fwf f -> is_poly f = false -> fn_add f (FZero (in_shape f) (out_shape f)) = Ok f) /\
  (forall g gs, fwf (FSum gs) -> In g gs -> is_sum g = false) /\
  (forall c g, fwf (FScaled c g) -> is_scaled g = false).
Proof.
  split; [|split; [|split; [|split; [|split]]]].
  - cbn. unfold const_add_const, np_add. rewrite shape_eqb_refl, broadcast_same. cbn. eauto.
  - eexists. reflexivity.
  - reflexivity.
  - intros Hf Hp. destruct f; try discriminate; cbn [fn_add]; unfold add_zero; now rewrite !shape_eqb_refl.
  - intros g gs H Hg. inversion H; subst. destruct (H1 g Hg) as (_ & E & _). exact E.
  - intros c g H. now inversion H.
Qed.
Theorem C07_classes : forall i o v v' s f,
  (exists w, fn_add (FConst i o v) (FConst i o v') = Ok (FConst i o w)) /\
  (exists w, fn_scale s (FConst i o v) = FConst i o w) /\
  fn_scale s (FZero i o) = FZero i o /\
  (fwf f -> is_poly f = false -> fn_add f (FZero (in_shape f) (out_shape f)) = Ok f) /\
  (forall g gs, fwf (FSum gs) -> In g gs -> is_sum g = false) /\
  (forall c g, fwf (FScaled c g) -> is_scaled g = false).
Proof. exact classes. Qed.
Print Assumptions C07_classes.

(** Operands whose shapes differ are rejected, except that a Constant on the
    right is not shape checked against a polynomial or another Constant. *)
Theorem C07_shape_mismatch : forall a b,
  (in_shape b <> in_shape a \/ out_shape b <> out_shape a) ->
  (is_constant b = true -> is_zero b = true /\ is_poly a = false \/ (is_poly a = false /\ is_constant a = false)) ->
  fn_add a b = Err AssertionError.
Proof. exact fn_add_shape_error. Qed.
Print Assumptions C07_shape_mismatch.

Theorem C07_constants_broadcast : forall i o1 v1 o2 v2 o, broadcast_shapes o1 o2 = Ok o ->
  fn_add (FConst i o1 v1) (FConst i o2 v2) =
  Ok (FConst i o (fun k => v1 (operand_index o1 k) + v2 (operand_index o2 k))).
Proof. exact const_add_broadcast. Qed.
Print Assumptions C07_constants_broadcast.

Lemma polynomial_constant_shape_refuted : exists p c f, fwf p /\ in_shape p <> in_shape c /\
  out_shape p <> out_shape c /\ fn_add p c = Ok f.
Proof.
  exists (FPoly (make_float [1])), (FConst [2%nat] [1%nat] (fun _ => 1)). eexists.
  split; [constructor; discriminate|]. split; [discriminate|]. split; [discriminate|]. reflexivity.
Qed.
Theorem C07_polynomial_constant_shape_refuted : exists p c f, fwf p /\ in_shape p <> in_shape c /\
  out_shape p <> out_shape c /\ fn_add p c = Ok f.
Proof. exact polynomial_constant_shape_refuted. Qed.
Print Assumptions C07_polynomial_constant_shape_refuted.

(** A polynomial plus a constant: accepted exactly when the constant has one entry. *)
Theorem C07_polynomial_constant : forall p i o v, py_valid p ->
  (size o = 1%nat -> exists q, fn_add (FPoly p) (FConst i o v) = Ok (FPoly q) /\ forall x, py_eval q x = py_eval p x + v (repeat 0%nat (length o))) /\
  (size o <> 1%nat -> fn_add (FPoly p) (FConst i o v) = Err TypeError) /\
  (size o = 1%nat -> exists q, fn_add (FPoly p) (FZero i o) = Ok (FPoly q) /\ forall x, py_eval q x = py_eval p x) /\
  (size o <> 1%nat -> fn_add (FPoly p) (FZero i o) = Err TypeError).
Proof.
  intros p i o v V. cbn [fn_add]. unfold poly_add_constant. split; [|split; [|split]]; intros H.
  - rewrite H. cbn [Nat.eqb]. eexists. split; [reflexivity|]. intros x. now apply py_eval_add_const.
  - apply Nat.eqb_neq in H. now rewrite H.
  - rewrite H. cbn [Nat.eqb]. eexists. split; [reflexivity|]. intros x. rewrite py_eval_add_const by assumption. apply Rplus_0_r.
  - apply Nat.eqb_neq in H. now rewrite H.
Qed.
Print Assumptions C07_polynomial_constant.

Example C07_example :
  let g := FOther [2%nat] [] (fun x _ => x [0%nat] * x [1%nat]) in
  let e := ESub (EScale (SFloat 2) (EScale (SFloat 3) (EAdd (ELeaf g) (ELeaf g)))) (ELeaf (FConst [2%nat] [] (fun _ => 5))) in
  (forall f, In f (leaves e) -> fwf f /\ in_shape f = [2%nat] /\ out_shape f = []) /\
  exists f, build e = Ok f /\ feval f (fun k => match k with [0%nat] => 3 | _ => 4 end) [] = 2 * (3 * (12 + 12)) - 5.
Proof.
  intros g e.
  assert (H : forall f, In f (leaves e) -> fwf f /\ in_shape f = [2%nat] /\ out_shape f = []).
  { intros f [<-|[<-|[<-|[]]]]; repeat split; constructor. }
  split; [exact H|]. destruct (build_ok e _ _ H) as (f & Hf & _ & _ & _ & Ev).
  exists f. split; [exact Hf|]. rewrite Ev by constructor. cbn. ring.
Qed.
