(** C43: linear operators on functions (and C41, C42: what the coefficients and the
    factorisation mean for functions). *)
From Coq Require Import List Reals Lra Lia Bool Arith ZArith FunctionalExtensionality.
From Coquelicot Require Import Coquelicot.
From Verif Require Import Base NdArray PolyClassModel PolyCalc FunExprModel FunExprProofs
  DiffopModel DiffopSpec DiffopProofs DiffopFactor LfoModel LfoSpec LfoSmooth LfoProofs LfoSound LfoTotal LfoAlg.
Import ListNotations.
Open Scope R_scope.

(** The coefficients of a differential operator, applied as a combination of partial
    derivatives, give the operator. *)
Theorem C41_apply : forall d c, dwf d -> d_coeffs d = Ok c -> exists inn, c_dict c = [([], inn)] /\
  (forall a y, In (a, y) inn -> mi_shape a = d_dom d) /\
  forall f x, total (map (fun '(a, y) => y * pderiv a f x) inn) = dsem d f x.
Proof.
  intros d c W H. destruct (d_coeffs_ok d c W H) as (inn & E & Hi & V). exists inn. split; [exact E|]. split; [|exact V].
  intros a y Ha. now apply Hi in Ha.
Qed.
(** Differentiating along the first-order factors in turn is the partial derivative. *)
Theorem C42_apply : forall a f, mi_wf a -> mi_order a <> 0%nat ->
  exists fs, factorize_first_order a = Ok fs /\ fold_left (fun df e => jvp df (mi_dir e)) fs f = pderiv a f.
Proof.
  intros a f W O. assert (H := jax_total (DPartial a) f (conj W O)). destruct H as [g Hg]. cbn in Hg.
  destruct (factorize_first_order a) as [fs|] eqn:E; [|discriminate]. exists fs. split; [reflexivity|].
  assert (X : fs = ffo_list a). { unfold factorize_first_order, composite_of in E. fold (ffo_list a) in E. destruct (ffo_list a); [discriminate|now injection E]. }
  subst fs. now apply ffo_value.
Qed.

(** Whatever an operator returns has the right shapes and the right values. *)
Theorem C43_sound : forall n L f g, wfo L -> fwf f -> fsm f -> (in_shape f, out_shape f) = o_in L -> call n L f = Ok g ->
  fwf g /\ fsm g /\ (in_shape g, out_shape g) = o_out L /\
  forall x k, valid_index (snd (o_out L)) k -> feval g x k = osem L (feval f) x k.
Proof. exact call_sound. Qed.
(** It does return on functions without scaled summands, if scalings come last. *)
Theorem C43_total : forall L f, outer_scaled L -> wfo L -> fwf f -> fsm f -> unscaled f -> (in_shape f, out_shape f) = o_in L ->
  exists n g, call n L f = Ok g /\ forall m, (n <= m)%nat -> call m L f = Ok g.
Proof.
  intros L f O W Wf Sf U E. destruct (outer_total L O W f Wf Sf U E) as (n & g & H). exists n, g. split; [exact H|].
  intros m Hm. now apply (call_more n).
Qed.
(** Expressions over operators: built whenever the shapes fit, refused otherwise. *)
Theorem C43_expressions : forall e i o, oty e i o ->
  exists L, obuild e = Ok L /\ wfo L /\ o_in L = i /\ o_out L = o /\
    forall n f g, fwf f -> fsm f -> (in_shape f, out_shape f) = i -> call n L f = Ok g ->
      (in_shape g, out_shape g) = o /\ forall x k, valid_index (snd o) k -> feval g x k = omeaning e (feval f) x k.
Proof.
  intros e i o T. destruct (omeaning_value e i o T) as (L & B & W & Ei & Eo & V). exists L.
  split; [exact B|]. split; [exact W|]. split; [exact Ei|]. split; [exact Eo|]. intros n f g Wf Sf E H.
  destruct (call_sound n L f g W Wf Sf) as (_ & _ & Eg & Vg); [congruence|exact H|]. split; [congruence|].
  intros x k Hk. rewrite Vg by (rewrite Eo; exact Hk). apply V; [|exact Hk].
  apply (is_fn_smooth i (feval f) f). split; [exact Wf|]. split; [exact Sf|]. split; [exact E|reflexivity].
Qed.
Theorem C43_shape_mismatch : forall e, (forall d, In d (x_diffs e) -> dwf d) ->
  (exists i o, oty e i o) \/ obuild e = Err AssertionError.
Proof.
  intros e D. destruct (obuild e) as [L|ex] eqn:E; [left; eauto using obuild_typed|]. right. f_equal. eapply obuild_err; eassumption.
Qed.
Theorem C43_add_mismatch : forall L M, o_in L <> o_in M \/ o_out L <> o_out M -> o_add L M = Err AssertionError.
Proof. exact o_add_err. Qed.
Theorem C43_matmul_mismatch : forall L M, wfo M -> o_in L <> o_out M -> o_matmul L M = Err AssertionError.
Proof. exact o_matmul_err. Qed.
(** Composition distributes over a sum on the right. *)
Theorem C43_distributes : forall L M N, wfo L -> wfo M -> wfo N -> o_in M = o_in N -> o_out M = o_out N -> o_in L = o_out M ->
  exists S LM LN, o_add M N = Ok S /\ o_matmul L M = Ok LM /\ o_matmul L N = Ok LN /\ o_matmul L S = Ok (OSum [LM; LN]).
Proof.
  intros L M N WL WM WN Ei Eo E. destruct (mk_sum2 M N WM WN Ei Eo) as (S & HS & WS & _).
  assert (S = OSum [M; N]) by (destruct (mk_sum_ok _ _ HS) as (? & ? & [= <- <-] & -> & _); reflexivity). subst S.
  destruct (o_matmul_ok L WL M WM E) as (LM & HM & _ & IM & OM & _). destruct (o_matmul_ok L WL N WN) as (LN & HN & _ & IN & ON & _); [congruence|].
  exists (OSum [M; N]), LM, LN. do 3 (split; [assumption|]). rewrite o_matmul_sum. cbn [matmul_list]. rewrite HM, HN. cbn [bind].
  unfold mk_sum. cbn [forallb]. rewrite IM, OM, IN, ON, Ei. assert (R : forall p, shapes_eqb p p = true) by (intros p; destruct (shapes_eqb_spec p p); congruence).
  now rewrite !R.
Qed.
(** Wrong argument shapes are refused. *)
Theorem C43_argument_shapes : forall n d f, dtotal d -> opaque_fn f = true -> (in_shape f, out_shape f) <> (d_dom d, []) ->
  (5 < n)%nat -> call n (ODiff d) f = Err ValueError.
Proof.
  intros n d f T O NE Hn. assert (W := dtotal_wf d T).
  assert (O0 : d_order0 d = false) by (destruct d; cbn in *; try reflexivity; apply Nat.eqb_neq; tauto).
  assert (C : is_constant_fn f = false) by (destruct f; easy).
  assert (B : forall call0 L, base_call call0 L f = Err NotImplementedError) by (intros; destruct f; easy).
  assert (NJ : forall m a, mi_shape a = d_dom d -> mi_order a <> 0%nat -> call (S m) (ODiff (DPartialNoJax a)) f = Err ValueError).
  { intros m a Ha Oa. cbn [call]. unfold diffop_call. rewrite C, andb_false_r. cbn [d_order0]. apply Nat.eqb_neq in Oa. rewrite Oa.
    unfold lindiffop_call, call_no_jax. rewrite B. cbn [or_else is_partial d_dom]. rewrite Ha.
    destruct (shape_eqb_spec (in_shape f) (d_dom d)) as [E1|E1]; [|reflexivity].
    destruct (shape_eqb_spec (out_shape f) []) as [E2|E2]; [|reflexivity]. exfalso. apply NE. now rewrite E1, E2. }
  do 6 (destruct n as [|n]; [lia|]). change (diffop_call (call (4 + S n)) d f = Err ValueError). unfold diffop_call. rewrite C, andb_false_r, O0. unfold lindiffop_call, call_no_jax. rewrite B.
  destruct (is_partial d) eqn:P.
  - cbn [or_else]. destruct (shape_eqb_spec (in_shape f) (d_dom d)) as [E1|E1]; [|reflexivity].
    destruct (shape_eqb_spec (out_shape f) []) as [E2|E2]; [|reflexivity]. exfalso. apply NE. now rewrite E1, E2.
  - destruct (to_sum_form d P T) as (y0 & a0 & inn & -> & Hinn). cbn [bind map].
    destruct (Hinn a0 y0 (or_introl eq_refl)) as (S0 & _ & O1).
    assert (Q : forall m l, call (4 + m) (OSum [OSum (OScaled y0 (ODiff (DPartialNoJax a0)) :: l)]) f = Err ValueError).
    { intros m l. apply sum_err with (L := OSum _). apply sum_err. change (bind (call (S m) (ODiff (DPartialNoJax a0)) f) (fun g => Ok (fn_scale (SFloat y0) g)) = Err ValueError). now rewrite (NJ m a0 S0 O1). }
    rewrite (Q (S n)). reflexivity.
Qed.
Theorem C43_constant_shapes : forall n d f, handles_constants d = true -> is_constant_fn f = true ->
  (in_shape f, out_shape f) <> (d_dom d, []) -> call (S n) (ODiff d) f = Err AssertionError.
Proof.
  intros n d f H C NE. cbn [call]. unfold diffop_call. rewrite H, C. cbn [andb].
  destruct (shape_eqb_spec (in_shape f) (d_dom d)) as [E1|E1]; [|reflexivity].
  destruct (shape_eqb_spec (out_shape f) []) as [E2|E2]; [|reflexivity]. exfalso. apply NE. now rewrite E1, E2.
Qed.
Theorem C43_identity : forall n dom cod f,
  call (S n) (OId dom cod) f = (if list_eq_dec Nat.eq_dec (in_shape f) dom then
                                if list_eq_dec Nat.eq_dec (out_shape f) cod then Ok f else Err ValueError else Err ValueError).
Proof.
  intros n dom cod f. cbn [call]. unfold id_call.
  destruct (list_eq_dec Nat.eq_dec (in_shape f) dom) as [->|N1].
  - rewrite shape_eqb_refl. cbn [negb]. destruct (list_eq_dec Nat.eq_dec (out_shape f) cod) as [->|N2]; [now rewrite shape_eqb_refl|].
    destruct (shape_eqb_spec (out_shape f) cod) as [E|E]; [contradiction|reflexivity].
  - destruct (shape_eqb_spec (in_shape f) dom) as [E|E]; [contradiction|reflexivity].
Qed.
(** Constants and zero are mapped to zero at once. *)
Theorem C43_constants : forall n d f, dwf d -> handles_constants d = true -> is_constant_fn f = true ->
  in_shape f = d_dom d -> out_shape f = [] -> call (S n) (ODiff d) f = Ok (FZero (d_dom d) []).
Proof. intros n d f W H C E1 E2. cbn [call]. unfold diffop_call. now rewrite H, C, E1, E2, !shape_eqb_refl. Qed.
(** Order zero: the partial derivative returns its argument ... *)
Theorem C43_order_zero : forall n a f, mi_order a = 0%nat -> is_constant_fn f = false -> call (S n) (ODiff (DPartial a)) f = Ok f.
Proof. intros n a f O C. cbn [call]. unfold diffop_call. rewrite C, andb_false_r. cbn [d_order0]. now rewrite O. Qed.
(** ... except for constants. *)
Theorem C43_order_zero_constant_refuted : exists a f, mi_order a = 0%nat /\
  (forall n, call (S n) (ODiff (DPartial a)) f = Ok (FZero [] [])) /\ forall x, feval f x [] = 5.
Proof. exists (unit_mi [] [] 0), (FConst [] [] (fun _ => 5)). repeat split. Qed.
(** Applying a differential operator to a scaled function recurses forever. *)
Theorem C43_scaled_function_refuted : forall n d c f, dwf d -> call n (ODiff d) (FScaled c f) = Err RecursionError.
Proof. exact scaled_diverges. Qed.
(** Hence so does a composition whose inner operator is scaled. *)
Theorem C43_scaled_composition_refuted : forall n d d' s g, dwf d -> dtotal d' ->
  call n (OComp [ODiff d; OScaled s (ODiff d')]) (FOther (d_dom d') [] g) = Err RecursionError.
Proof. exact scaled_comp_diverges. Qed.
(** Operators with only zero coefficients cannot be applied. *)
Theorem C43_zero_weights_refuted : forall n b sh (w : index -> R) g, (forall i, valid_index sh i -> w i = 0) ->
  call (S n) (ODiff (DLap b sh w)) (FOther sh [] g) = Err IndexError.
Proof.
  intros n b sh w g Hw. cbn [call]. unfold diffop_call. cbn [is_constant_fn]. rewrite andb_false_r. cbn [d_order0].
  unfold lindiffop_call, call_no_jax. cbn [base_call or_else is_partial].
  assert (E : to_sum_no_jax (DLap b sh w) = Err IndexError).
  { unfold to_sum_no_jax. cbn [d_coeffs]. destruct (axis_ok RF RF_laws sh w 2) as (c & Hc & _); [discriminate|]. unfold weighted_laplacian. rewrite Hc. cbn [bind].
    apply mk_coeffs_inv in Hc as ->. cbn [c_dict]. rewrite axis_list by discriminate.
    assert (N : axis_items (F := RF) sh w 2 (all_indices sh) = []).
    { assert (G : forall l, (forall i, In i l -> valid_index sh i) -> axis_items (F := RF) sh w 2 l = []).
      { induction l as [|i l IH]; intros H; [reflexivity|]. cbn [axis_items flat_map]. 
        unfold axis_items in IH |- *. cbn [flat_map]. rewrite IH by (intros; apply H; now right).
        rewrite (Hw i) by (apply H; now left). cbn. destruct (Req_EM_T 0 0); [reflexivity|congruence]. }
      apply G. intros i Hi. now apply all_indices_spec. }
    rewrite N. reflexivity. }
  rewrite E. reflexivity.
Qed.

(** Non-vacuity: f(x, y) = x y on the plane. *)
Definition ex_mul (x : array) : R := x [0%nat] * x [1%nat].
Definition ex_P (g : array -> R) : Prop := exists a b c d : R, g = fun x => a + b * x [0%nat] + c * x [1%nat] + d * (x [0%nat] * x [1%nat]).
Lemma ex_derive (a b c d : R) (v x : array) :
  is_derive (fun t => a + b * (x [0%nat] + t * v [0%nat]) + c * (x [1%nat] + t * v [1%nat]) + d * ((x [0%nat] + t * v [0%nat]) * (x [1%nat] + t * v [1%nat]))) 0
    (v [0%nat] * (b + d * x [1%nat]) + v [1%nat] * (c + d * x [0%nat])).
Proof. auto_derive; [exact I|ring]. Qed.
Lemma ex_pd0 a b c d : pd [0%nat] (fun x => a + b * x [0%nat] + c * x [1%nat] + d * (x [0%nat] * x [1%nat])) = fun x => b + d * x [1%nat].
Proof. extensionality x. apply pd_eq. pose proof (ex_derive a b c d (unitv [0%nat]) x) as H. cbn in H |- *. now replace (b + d * x [1%nat]) with (1 * (b + d * x [1%nat]) + 0 * (c + d * x [0%nat])) by ring. Qed.
Lemma ex_pd1 a b c d : pd [1%nat] (fun x => a + b * x [0%nat] + c * x [1%nat] + d * (x [0%nat] * x [1%nat])) = fun x => c + d * x [0%nat].
Proof. extensionality x. apply pd_eq. pose proof (ex_derive a b c d (unitv [1%nat]) x) as H. cbn in H |- *. now replace (c + d * x [0%nat]) with (0 * (b + d * x [1%nat]) + 1 * (c + d * x [0%nat])) by ring. Qed.
Lemma ex_idx i : valid_index [2%nat] i -> i = [0%nat] \/ i = [1%nat].
Proof. intros H. inversion H as [|a b l l' Hab Hl]; subst. inversion Hl; subst. destruct a as [|[|]]; [auto|auto|lia]. Qed.
Lemma ex_mul_smooth : smooth [2%nat] ex_mul.
Proof.
  apply (smooth_class [2%nat] ex_P).
  - intros g (a & b & c & d & ->) v x. change (all_indices [2%nat]) with [[0%nat]; [1%nat]]. cbn [map]. unfold total. cbn [fold_right].
    rewrite ex_pd0, ex_pd1. rewrite Rplus_0_r. apply ex_derive.
  - intros g i (a & b & c & d & ->) Hi. destruct (ex_idx i Hi) as [-> | ->].
    + exists b, 0, d, 0. rewrite ex_pd0. extensionality x. ring.
    + exists c, d, 0, 0. rewrite ex_pd1. extensionality x. ring.
  - exists 0, 0, 0, 1. extensionality x. unfold ex_mul. ring.
Qed.
(** 2 (d/dx + d/dy) f + (d/dx + d/dy) d/dx f = 2 (x + y) + 1 *)
Definition ex_dir : dop := DDir [2%nat] (fun _ => 1).
Definition ex_dx : dop := DPartial (unit_mi [2%nat] [0%nat] 1).
Definition ex_expr : oexpr := XAdd (XScale 2 (XDiff ex_dir)) (XComp (XDiff ex_dir) (XDiff ex_dx)).
Example C43_example : exists L n g, obuild ex_expr = Ok L /\ call n L (FOther [2%nat] [] (fun x _ => ex_mul x)) = Ok g /\
  forall x, feval g x [] = 2 * (x [0%nat] + x [1%nat]) + 1.
Proof.
  assert (Wdx : dwf ex_dx) by (split; [reflexivity|cbn; lia]).
  assert (T : oty ex_expr ([2%nat], []) ([2%nat], [])).
  { apply ty_add; [apply ty_scale|eapply ty_comp]; apply (ty_diff ex_dir I) || apply (ty_diff ex_dx Wdx). }
  destruct (C43_expressions _ _ _ T) as (L & B & W & Ei & Eo & V).
  assert (Sf : fsm (FOther [2%nat] [] (fun x _ => ex_mul x))).
  { intros i g [[= <- <-]|[]]. exact ex_mul_smooth. }
  destruct (C43_total L (FOther [2%nat] [] (fun x _ => ex_mul x))) as (n & g & Hg & _).
  - injection B as <-. apply os_sum. assert (Td : plain (ODiff ex_dir)).
    { apply pl_diff. exists [0%nat]. split; [|apply R1_neq_R0]. repeat constructor. }
    intros M [<-|[<-|[]]]; [apply os_scaled, os_plain, Td|]. apply os_plain, pl_comp. intros M [<-|[<-|[]]]; [exact Td|]. apply pl_diff. exact Wdx.
  - exact W.
  - constructor.
  - exact Sf.
  - now apply unscaled_one.
  - rewrite Ei. reflexivity.
  - exists L, n, g. split; [exact B|]. split; [exact Hg|]. intros x.
    destruct (V n _ g ltac:(constructor) Sf eq_refl Hg) as [_ Vg]. rewrite Vg by constructor.
    cbn [omeaning ex_expr feval dsem ex_dir ex_dx]. change (all_indices [2%nat]) with [[0%nat]; [1%nat]]. cbn [map]. unfold total. cbn [fold_right].
    rewrite pderiv_unit by (repeat constructor). change (Nat.iter 1 (pd [0%nat]) (fun y => ex_mul y)) with (pd [0%nat] ex_mul).
    assert (E : ex_mul = fun x => 0 + 0 * x [0%nat] + 0 * x [1%nat] + 1 * (x [0%nat] * x [1%nat])) by (extensionality y; unfold ex_mul; ring).
    change (fun y => ex_mul y) with ex_mul. rewrite E at 1 2 3 4. rewrite !ex_pd0, !ex_pd1.
    assert (E2 : (fun x : array => 0 + 1 * x [1%nat]) = fun x => 0 + 0 * x [0%nat] + 1 * x [1%nat] + 0 * (x [0%nat] * x [1%nat])) by (extensionality y; ring).
    rewrite E2, ex_pd0, ex_pd1. ring.
Qed.
Print Assumptions C41_apply.
Print Assumptions C42_apply.
Print Assumptions C43_sound.
Print Assumptions C43_total.
Print Assumptions C43_expressions.
Print Assumptions C43_scaled_composition_refuted.
