(** Functions and covariance functions given by a callable; shapes under operators and
    functionals (C64). *)
From Coq Require Import List Arith ZArith Bool Lia QArith Qcanon.
From Verif Require Import Base NdArray NdData BlockModel CovModel CrossModel CrossProofs CrossKern BatchProofs ShapedModel ShapedSpec ShapedProofs ShapedProps LambdaModel LambdaSpec LambdaProofs.
Import ListNotations.
Local Open Scope nat_scope.

Section C64.
Context {F : fops}.

(** ** Functions *)
(** A callable on single points becomes a function on batches of every shape, the same with
    NumPy and with JAX. *)
Theorem C64_function (fn : traced1 F) insh outsh v : fn insh = Ok (outsh, v) ->
  exists f, mk_lambda fn (STup insh) (STup outsh) true = Ok f /\ fn_in f = insh /\ fn_out f = outsh /\
    vectorises insh outsh (fn_call f) v /\ vectorises insh outsh (fn_jax f) v.
Proof.
  intros H. eexists. split; [reflexivity|]. split; [reflexivity|]. split; [reflexivity|].
  assert (G : forall x batch, nshape x = batch ++ insh -> exists a, vectorize1 (length insh) (length outsh) fn x = Ok a /\ nshape a = batch ++ outsh /\
     forall b j, valid_index batch b -> valid_index outsh j -> nat_ a (b ++ j) = v (fun i => nat_ x (b ++ i)) j).
  { intros x batch E. rewrite (vec1_ok _ _ _ _ _ E), H. cbn [bind]. rewrite Nat.eqb_refl. eexists. split; [reflexivity|]. split; [reflexivity|].
    intros b j Hb _. cbn [nat_]. now rewrite firstn_app_l, skipn_app_l by exact (valid_index_length _ _ Hb). }
  split; intros x batch E; destruct (G x batch E) as [a [Ha [S V]]]; exists a; (split; [|now split]).
  - unfold fn_call. cbn [fn_in fn_ev fn_out]. cbn [as_shape]. rewrite (batch_ok _ _ _ E). cbn [bind]. rewrite Ha. cbn [bind]. now rewrite S, shape_eqb_refl.
  - unfold fn_jax. cbn [fn_in fn_evj fn_out]. cbn [as_shape]. rewrite (prefix_ok _ _ _ E), E, broadcast_same. cbn [bind]. rewrite shape_eqb_refl, Ha. cbn [bind]. now rewrite S, shape_eqb_refl.
Qed.
(** A callable that raises, returns the wrong number of axes or axes of the wrong sizes makes
    every evaluation raise, also on batches without points. *)
Theorem C64_function_errors (fn : traced1 F) insh outsh f call : mk_lambda fn (STup insh) (STup outsh) true = Ok f -> call = fn_call \/ call = fn_jax ->
  forall x batch, nshape x = batch ++ insh ->
  (forall e, fn insh = Err e -> call f x = Err e) /\
  (forall o v, fn insh = Ok (o, v) -> length o <> length outsh -> call f x = Err ValueError) /\
  (forall o v, fn insh = Ok (o, v) -> length o = length outsh -> o <> outsh -> call f x = Err AssertionError).
Proof.
  intros H C x batch E. cbn in H. injection H as <-.
  assert (G : call (mkfn (F := F) insh outsh (vectorize1 (length insh) (length outsh) fn) (Some (vectorize1 (length insh) (length outsh) fn))) x =
    bind (vectorize1 (length insh) (length outsh) fn x) (fun a => if shape_eqb (nshape a) (batch ++ outsh) then Ok a else Err AssertionError)).
  { destruct C as [->| ->].
    - unfold fn_call. cbn [fn_in fn_ev fn_out]. now rewrite (batch_ok _ _ _ E).
    - unfold fn_jax. cbn [fn_in fn_evj fn_out]. rewrite (prefix_ok _ _ _ E), E, broadcast_same. cbn [bind]. now rewrite shape_eqb_refl. }
  rewrite G, (vec1_ok _ _ _ _ _ E). split; [|split].
  - intros e ->. reflexivity.
  - intros o v -> L. cbn [bind]. now apply Nat.eqb_neq in L as ->.
  - intros o v -> L N. cbn [bind]. rewrite L, Nat.eqb_refl. cbn [bind nshape].
    destruct (shape_eqb_spec (batch ++ o) (batch ++ outsh)) as [Q|]; [|reflexivity]. now apply app_inv_head in Q.
Qed.
(** Shapes given by an integer, which [ShapeLike] allows, are refused. *)
Theorem C64_function_integer_shape_refuted (fn : traced1 F) n s vec :
  mk_lambda fn (SInt n) s vec = Err TypeError /\ (forall insh, mk_lambda fn (STup insh) (SInt n) vec = Err TypeError).
Proof. split; reflexivity. Qed.
(** Without vectorisation the callable gets the whole array; what it returns has to have the
    output shape at every point of the batch. *)
Theorem C64_function_whole (fn : traced1 F) insh outsh :
  exists f, mk_lambda fn (STup insh) (STup outsh) false = Ok f /\
  forall call, call = fn_call \/ call = fn_jax -> forall x batch, nshape x = batch ++ insh ->
  (forall e, fn (nshape x) = Err e -> call f x = Err e) /\
  (forall v, fn (nshape x) = Ok (batch ++ outsh, v) -> call f x = Ok (Nd (batch ++ outsh) (v (nat_ x)))) /\
  (forall o v, fn (nshape x) = Ok (o, v) -> o <> batch ++ outsh -> call f x = Err AssertionError).
Proof.
  eexists. split; [reflexivity|]. intros call C x batch E.
  assert (G : call (mkfn (F := F) insh outsh (apply1 fn) (Some (apply1 fn))) x =
    bind (apply1 fn x) (fun a => if shape_eqb (nshape a) (batch ++ outsh) then Ok a else Err AssertionError)).
  { destruct C as [->| ->].
    - unfold fn_call. cbn [fn_in fn_ev fn_out]. now rewrite (batch_ok _ _ _ E).
    - unfold fn_jax. cbn [fn_in fn_evj fn_out]. rewrite (prefix_ok _ _ _ E), E, broadcast_same. cbn [bind]. now rewrite shape_eqb_refl. }
  cbn [as_shape]. rewrite G. unfold apply1. split; [|split].
  - intros e ->. reflexivity.
  - intros v ->. cbn [bind nshape]. now rewrite shape_eqb_refl.
  - intros o v -> N. cbn [bind nshape]. destruct (shape_eqb_spec o (batch ++ outsh)); [contradiction|reflexivity].
Qed.
(** The JAX call accepts points whose axes merely broadcast to the input shape, but does not
    broadcast them: the callable gets smaller points than declared. *)
Theorem C64_function_jax_small_refuted (fn : traced1 F) insh outsh s v f : mk_lambda fn (STup insh) (STup outsh) true = Ok f ->
  length s = length insh -> broadcast_shapes s insh = Ok insh -> fn s = Ok (outsh, v) ->
  vectorises s outsh (fn_jax f) v.
Proof.
  intros H L B Hv x batch E. cbn in H. injection H as <-. unfold fn_jax. cbn [fn_in fn_evj fn_out].
  rewrite <- L, (prefix_ok s batch _ E), E, (broadcast_suffix batch _ _ _ L B). cbn [bind]. rewrite shape_eqb_refl.
  rewrite (vec1_ok _ _ _ _ _ E), Hv. cbn [bind]. rewrite Nat.eqb_refl. cbn [bind nshape]. rewrite shape_eqb_refl. eexists. split; [reflexivity|]. split; [reflexivity|].
  intros b j Hb _. cbn [nat_]. now rewrite firstn_app_l, skipn_app_l by exact (valid_index_length _ _ Hb).
Qed.
(** Points with too few axes, which the JAX call lets pass, are refused by the vectorised
    callable. *)
Theorem C64_function_few_axes (fn : traced1 F) insh outsh f x : mk_lambda fn (STup insh) (STup outsh) true = Ok f ->
  length (nshape x) < length insh -> fn_jax f x = Err ValueError.
Proof.
  intros H L. cbn in H. injection H as <-. unfold fn_jax. cbn [fn_in fn_evj fn_out]. cbv zeta.
  destruct (broadcast_shapes _ _) as [t|e] eqn:T; cbn [bind]; [|f_equal; exact (broadcast_err _ _ _ T)].
  destruct (shape_eqb _ _); [|reflexivity]. now rewrite (vec1_few _ _ _ _ L).
Qed.

(** ** Covariance functions *)
(** A callable on pairs of numbers or vectors that returns a number, a vector or a matrix
    becomes a covariance function: pairs of points are evaluated along the broadcast
    batches. *)
Theorem C64_covfunc (k : lamcov F) v x0 x1 b0 b1 b : lc_vec k = true ->
  length (lc_in k) <= 1 -> length (lc_out0 k) <= 1 -> length (lc_out1 k) <= 1 ->
  lc_fn k (lc_in k) (lc_in k) = Ok (lc_out0 k ++ lc_out1 k, v) ->
  nshape x0 = b0 ++ lc_in k -> nshape x1 = b1 ++ lc_in k -> broadcast_shapes b0 b1 = Ok b ->
  exists a, lc_call k x0 (Some x1) = Ok a /\ pairwise v x0 x1 b0 b1 b (lc_out0 k ++ lc_out1 k) a.
Proof.
  intros V L L0 L1 H E0 E1 B. unfold lc_call, lc_eval. rewrite (check_ok (lc_in k) x0 (Some x1) b0 b1 b (conj E0 E1) B), V. cbn [bind second].
  rewrite (vec2_ok _ _ _ _ _ _ _ _ E0 E1) by (now apply one_axis_le). rewrite B, H. cbn [bind]. unfold lc_core_out. rewrite !one_axis_le, app_length, Nat.eqb_refl by assumption.
  cbn [bind nshape]. rewrite shape_eqb_refl. eexists. split; [reflexivity|apply vec_pairwise].
Qed.
(** One array: every point is paired with itself. *)
Theorem C64_covfunc_one (k : lamcov F) x : lc_call k x None = lc_call k x (Some x).
Proof. reflexivity. Qed.
(** Points of the wrong shape and batches that do not broadcast are refused, whatever the
    callable. *)
Theorem C64_covfunc_refused (k : lamcov F) x0 x1 :
  ((forall b, nshape x0 <> b ++ lc_in k) -> lc_call k x0 (Some x1) = Err ValueError /\ lc_call k x0 None = Err ValueError) /\
  (forall b0, nshape x0 = b0 ++ lc_in k -> (forall b, nshape x1 <> b ++ lc_in k) -> lc_call k x0 (Some x1) = Err ValueError) /\
  (forall b0 b1, nshape x0 = b0 ++ lc_in k -> nshape x1 = b1 ++ lc_in k -> (forall b, broadcast_shapes b0 b1 <> Ok b) -> lc_call k x0 (Some x1) = Err ValueError).
Proof.
  unfold lc_call, check_shapes. cbn [second]. split; [|split].
  - intros H. rewrite (batch_shape_err _ _ H). now split.
  - intros b0 E H. rewrite (batch_shape_ok _ _ _ E), (batch_shape_err _ _ H). reflexivity.
  - intros b0 b1 E0 E1 H. rewrite (batch_shape_ok _ _ _ E0), (batch_shape_ok _ _ _ E1). cbn [bind].
    destruct (broadcast_shapes b0 b1) as [b|e] eqn:B; [now destruct (H b)|]. cbn [bind]. f_equal. exact (broadcast_err _ _ _ B).
Qed.
(** A callable that raises or returns something of the wrong shape. *)
Theorem C64_covfunc_errors (k : lamcov F) x0 x1 b0 b1 b : lc_vec k = true -> length (lc_in k) <= 1 ->
  nshape x0 = b0 ++ lc_in k -> nshape x1 = b1 ++ lc_in k -> broadcast_shapes b0 b1 = Ok b ->
  (forall e, lc_fn k (lc_in k) (lc_in k) = Err e -> lc_call k x0 (Some x1) = Err e) /\
  (forall o v, lc_fn k (lc_in k) (lc_in k) = Ok (o, v) -> length o <> Nat.min 1 (length (lc_out0 k)) + Nat.min 1 (length (lc_out1 k)) -> lc_call k x0 (Some x1) = Err ValueError) /\
  (forall o v, lc_fn k (lc_in k) (lc_in k) = Ok (o, v) -> length o = Nat.min 1 (length (lc_out0 k)) + Nat.min 1 (length (lc_out1 k)) -> o <> lc_out0 k ++ lc_out1 k ->
     lc_call k x0 (Some x1) = Err AssertionError).
Proof.
  intros V L E0 E1 B.
  assert (O : forall s, one_axis s = Nat.min 1 (length s)) by (intros [|d s]; reflexivity).
  unfold lc_call, lc_eval. rewrite (check_ok (lc_in k) x0 (Some x1) b0 b1 b (conj E0 E1) B), V. cbn [bind second].
  rewrite (vec2_ok _ _ _ _ _ _ _ _ E0 E1) by (now apply one_axis_le). rewrite B. cbn [bind]. unfold lc_core_out. rewrite !O. split; [|split].
  - intros e ->. reflexivity.
  - intros o v -> N. cbn [bind]. now apply Nat.eqb_neq in N as ->.
  - intros o v -> N Q. cbn [bind]. apply Nat.eqb_eq in N as ->. cbn [bind nshape].
    destruct (shape_eqb_spec (b ++ o) (b ++ lc_out0 k ++ lc_out1 k)) as [T|]; [|reflexivity]. now apply app_inv_head in T.
Qed.
(** Inputs with several axes: the callable never gets a point, only the vectors along its
    last axis, so that no evaluation succeeds (outputs with at most one axis per argument). *)
Theorem C64_covfunc_matrix_inputs_refuted (k : lamcov F) s d x0 x1 b0 b1 b : lc_vec k = true -> lc_in k = s ++ [d] -> s <> [] ->
  length (lc_out0 k) <= 1 -> length (lc_out1 k) <= 1 ->
  nshape x0 = b0 ++ lc_in k -> nshape x1 = b1 ++ lc_in k -> broadcast_shapes b0 b1 = Ok b ->
  lc_call k x0 (Some x1) = match lc_fn k [d] [d] with
                           | Ok (o, _) => if length o =? length (lc_out0 k) + length (lc_out1 k) then Err AssertionError else Err ValueError
                           | Err e => Err e
                           end.
Proof.
  intros V I N L0 L1 E0 E1 B. unfold lc_call, lc_eval. rewrite (check_ok (lc_in k) x0 (Some x1) b0 b1 b (conj E0 E1) B), V. cbn [bind second].
  assert (E0' : nshape x0 = (b0 ++ s) ++ [d]) by (rewrite E0, I; apply app_assoc). assert (E1' : nshape x1 = (b1 ++ s) ++ [d]) by (rewrite E1, I; apply app_assoc).
  rewrite (vec2_ok _ _ _ _ _ _ _ _ E0' E1') by (unfold lc_core; rewrite I; apply one_axis_cons).
  rewrite (broadcast_app s _ _ _ B). cbn [bind]. destruct (lc_fn k [d] [d]) as [[o v]|e]; [|reflexivity]. cbn [bind]. unfold lc_core_out. rewrite !one_axis_le by assumption.
  destruct (Nat.eqb_spec (length o) (length (lc_out0 k) + length (lc_out1 k))) as [Q|]; [|reflexivity]. cbn [bind nshape].
  destruct (shape_eqb_spec ((b ++ s) ++ o) (b ++ lc_out0 k ++ lc_out1 k)) as [T|]; [|reflexivity].
  apply (f_equal (@length nat)) in T. rewrite !app_length in T. destruct s; [easy|cbn in T; lia].
Qed.
(** Outputs with several axes: a callable that returns what is declared is refused. *)
Theorem C64_covfunc_matrix_outputs_refuted (k : lamcov F) v x0 x1 b0 b1 b : lc_vec k = true -> length (lc_in k) <= 1 ->
  2 <= length (lc_out0 k) \/ 2 <= length (lc_out1 k) -> lc_fn k (lc_in k) (lc_in k) = Ok (lc_out0 k ++ lc_out1 k, v) ->
  nshape x0 = b0 ++ lc_in k -> nshape x1 = b1 ++ lc_in k -> broadcast_shapes b0 b1 = Ok b ->
  lc_call k x0 (Some x1) = Err ValueError.
Proof.
  intros V L M H E0 E1 B. apply (proj1 (proj2 (C64_covfunc_errors k x0 x1 b0 b1 b V L E0 E1 B)) _ _ H). rewrite app_length. lia.
Qed.
(** Without vectorisation the callable gets both arrays as they are. *)
Theorem C64_covfunc_whole (k : lamcov F) x0 x1 b0 b1 b : lc_vec k = false ->
  nshape x0 = b0 ++ lc_in k -> nshape x1 = b1 ++ lc_in k -> broadcast_shapes b0 b1 = Ok b ->
  (forall e, lc_fn k (nshape x0) (nshape x1) = Err e -> lc_call k x0 (Some x1) = Err e) /\
  (forall v, lc_fn k (nshape x0) (nshape x1) = Ok (b ++ lc_out0 k ++ lc_out1 k, v) ->
     lc_call k x0 (Some x1) = Ok (Nd (b ++ lc_out0 k ++ lc_out1 k) (v (nat_ x0) (nat_ x1)))) /\
  (forall o v, lc_fn k (nshape x0) (nshape x1) = Ok (o, v) -> o <> b ++ lc_out0 k ++ lc_out1 k -> lc_call k x0 (Some x1) = Err AssertionError).
Proof.
  intros V E0 E1 B. unfold lc_call, lc_eval. rewrite (check_ok (lc_in k) x0 (Some x1) b0 b1 b (conj E0 E1) B), V. cbn [bind second]. unfold apply2. split; [|split].
  - intros e ->. reflexivity.
  - intros v ->. cbn [bind nshape]. now rewrite shape_eqb_refl.
  - intros o v -> N. cbn [bind nshape]. destruct (shape_eqb_spec o (b ++ lc_out0 k ++ lc_out1 k)); [contradiction|reflexivity].
Qed.
(** Vectorisation itself refuses points with too few axes and points of different shapes. *)
Theorem C64_vectorize_errors (fn : traced2 F) ki ko x0 x1 :
  (length (nshape x0) < ki \/ length (nshape x1) < ki -> vectorize2 ki ko fn x0 x1 = Err ValueError) /\
  (forall b0 c0 b1 c1, nshape x0 = b0 ++ c0 -> nshape x1 = b1 ++ c1 -> length c0 = ki -> length c1 = ki -> c0 <> c1 -> vectorize2 ki ko fn x0 x1 = Err ValueError).
Proof.
  unfold vectorize2. split.
  - intros [H|H]; apply Nat.ltb_lt in H; rewrite H; [|rewrite orb_true_r]; reflexivity.
  - intros b0 c0 b1 c1 E0 E1 L0 L1 N. rewrite E0, E1, !app_length, L0, L1. rewrite !(proj2 (Nat.ltb_ge _ _)) by lia. cbn [orb].
    replace (length b0 + ki - ki) with (length b0) by lia. replace (length b1 + ki - ki) with (length b1) by lia. rewrite !skipn_app, !skipn_all, !Nat.sub_diag. cbn [app skipn].
    destruct (shape_eqb_spec c0 c1); [contradiction|reflexivity].
Qed.

End C64.

(** ** Shapes under operators and functionals *)
(** An operator on one argument: accepted exactly if it takes functions with the shapes of
    that argument; it changes the shapes of that argument only. *)
Theorem C64_operator_shapes k L (reverse : bool) n : identity_lfo_argnum reverse = n ->
  (n = if reverse then 0 else 1) /\
  (op_fits L k n -> mk_identity_lfo k L reverse = Ok (op_result L k n)) /\
  (~ op_fits L k n -> mk_identity_lfo k L reverse = Err ValueError).
Proof.
  intros <-. split; [reflexivity|]. unfold mk_identity_lfo, op_fits. destruct reverse; cbn [identity_lfo_argnum].
  - destruct (shape_eqb_spec (os_dom L) (cs_in0 k)), (shape_eqb_spec (os_cod L) (cs_out0 k)); cbn [negb op_result]; split; intros H; try reflexivity; try (exfalso; apply H; left; repeat split; assumption);
      destruct H as [(_ & ? & ?)|(? & _)]; congruence || discriminate.
  - destruct (shape_eqb_spec (os_dom L) (cs_in1 k)), (shape_eqb_spec (os_cod L) (cs_out1 k)); cbn [negb op_result]; split; intros H; try reflexivity; try (exfalso; apply H; right; repeat split; assumption);
      destruct H as [(? & _)|(_ & ? & ?)]; congruence || discriminate.
Qed.
(** Operators on both arguments: the same as one after the other, in both orders. *)
Theorem C64_operators_both k L0 L1 c :
  (mk_lfo_lfo k L0 L1 = Ok c <-> exists c', mk_identity_lfo k L0 true = Ok c' /\ mk_identity_lfo c' L1 false = Ok c) /\
  (mk_lfo_lfo k L0 L1 = Ok c <-> exists c', mk_identity_lfo k L1 false = Ok c' /\ mk_identity_lfo c' L0 true = Ok c) /\
  (mk_lfo_lfo k L0 L1 = Ok c -> c = CovShape (os_odom L0) (os_odom L1) (os_ocod L0) (os_ocod L1)) /\
  (forall e, mk_lfo_lfo k L0 L1 = Err e -> e = ValueError).
Proof.
  split; [|split; [|split]].
  - unfold mk_lfo_lfo, mk_identity_lfo. split.
    + destruct (shape_eqb (os_dom L0) (cs_in0 k)), (shape_eqb (os_cod L0) (cs_out0 k)), (shape_eqb (os_dom L1) (cs_in1 k)) eqn:E, (shape_eqb (os_cod L1) (cs_out1 k)) eqn:E'; cbn [negb]; try discriminate.
      intros H. eexists. split; [reflexivity|]. cbn [cs_in1 cs_out1 cs_in0 cs_out0]. now rewrite E, E'.
    + intros [c' [H H']]. destruct (shape_eqb (os_dom L0) (cs_in0 k)), (shape_eqb (os_cod L0) (cs_out0 k)); cbn [negb] in *; try discriminate. injection H as <-. exact H'.
  - unfold mk_lfo_lfo, mk_identity_lfo. split.
    + destruct (shape_eqb (os_dom L0) (cs_in0 k)) eqn:E, (shape_eqb (os_cod L0) (cs_out0 k)) eqn:E', (shape_eqb (os_dom L1) (cs_in1 k)), (shape_eqb (os_cod L1) (cs_out1 k)); cbn [negb]; try discriminate.
      intros H. eexists. split; [reflexivity|]. cbn [cs_in1 cs_out1 cs_in0 cs_out0]. now rewrite E, E'.
    + intros [c' [H H']]. destruct (shape_eqb (os_dom L1) (cs_in1 k)), (shape_eqb (os_cod L1) (cs_out1 k)); cbn [negb] in *; try discriminate. injection H as <-. exact H'.
  - unfold mk_lfo_lfo. destruct (shape_eqb (os_dom L0) _), (shape_eqb (os_cod L0) _), (shape_eqb (os_dom L1) _), (shape_eqb (os_cod L1) _); cbn [negb]; congruence.
  - intros e. unfold mk_lfo_lfo. destruct (shape_eqb (os_dom L0) _), (shape_eqb (os_cod L0) _), (shape_eqb (os_dom L1) _), (shape_eqb (os_cod L1) _); cbn [negb]; congruence.
Qed.
(** A functional on one argument: accepted exactly if it takes functions with the shapes of
    that argument; the process has the shapes of the other one. *)
Theorem C64_functional_shapes k L (reverse : bool) :
  (functional_fits L k (if reverse then 0 else 1) ->
     mk_functional_pv k L reverse = Ok (PvShape (if reverse then cs_in1 k else cs_in0 k) (if reverse then cs_out1 k else cs_out0 k) (ls_out L) reverse)) /\
  (~ functional_fits L k (if reverse then 0 else 1) -> mk_functional_pv k L reverse = Err ValueError).
Proof.
  unfold mk_functional_pv, functional_fits. destruct reverse.
  - destruct (shape_eqb_spec (ls_dom L) (cs_in0 k)), (shape_eqb_spec (ls_cod L) (cs_out0 k)); cbn [negb]; split; intros H; try reflexivity; try (exfalso; apply H; left; repeat split; assumption);
      destruct H as [(_ & ? & ?)|(? & _)]; congruence || discriminate.
  - destruct (shape_eqb_spec (ls_dom L) (cs_in1 k)), (shape_eqb_spec (ls_cod L) (cs_out1 k)); cbn [negb]; split; intros H; try reflexivity; try (exfalso; apply H; right; repeat split; assumption);
      destruct H as [(? & _)|(_ & ? & ?)]; congruence || discriminate.
Qed.
(** Exchanging the arguments of the covariance function exchanges the two flavours. *)
Theorem C64_functional_swap k L reverse p : mk_functional_pv k L reverse = Ok p ->
  mk_functional_pv (swapped k) L (negb reverse) = Ok (PvShape (ps_in p) (ps_out p) (ps_rv p) (negb (ps_reverse p))).
Proof.
  unfold mk_functional_pv, swapped. destruct reverse; cbn [negb cs_in0 cs_in1 cs_out0 cs_out1];
    destruct (shape_eqb (ls_dom L) _), (shape_eqb (ls_cod L) _); cbn [negb]; try discriminate; intros H; injection H as <-; reflexivity.
Qed.

(** ** Examples *)
(** The sum of the entries of a vector with two entries, at a batch of three points *)
Definition ex_fn : traced1 QcF := fun s => Ok ([], fun p _ => fsum (map (fun i => p [i]) (seq 0 (hd 0 s)))).
Example C64_function_example :
  exists f a, mk_lambda ex_fn (STup [2]) (STup []) true = Ok f /\ fn_call f (Nd [3; 2] (fun i => Q2Qc (inject_Z (Z.of_nat (10 * nth 0 i 0 + nth 1 i 0))))) = Ok a /\
  nshape a = [3] /\ nat_ a [2] = Q2Qc (inject_Z 41).
Proof. eexists. eexists. split; [reflexivity|]. split; [reflexivity|]. split; [reflexivity|]. apply Qc_is_canon. reflexivity. Qed.
(** Called with vectors of one entry through [jax], it adds one entry. *)
Example C64_function_jax_small_example :
  exists f a, mk_lambda ex_fn (STup [2]) (STup []) true = Ok f /\ fn_jax f (Nd [3; 1] (fun i => Q2Qc (inject_Z (Z.of_nat (7 + nth 0 i 0))))) = Ok a /\ nat_ a [2] = Q2Qc (inject_Z 9).
Proof. eexists. eexists. split; [reflexivity|]. split; [reflexivity|]. apply Qc_is_canon. reflexivity. Qed.
(** The outer product of two vectors *)
Definition ex_outer : lamcov QcF := LamCov (F := QcF) [2] [2] [2] true (fun s t => Ok (s ++ t, fun p q l => fmul (q [nth 1 l 0]) (p [nth 0 l 0]))).
Example C64_covfunc_example :
  exists a, lc_call ex_outer (Nd [3; 1; 2] (fun i => Q2Qc (inject_Z (Z.of_nat (10 * nth 0 i 0 + nth 2 i 0))))) (Some (Nd [4; 2] (fun i => Q2Qc (inject_Z (Z.of_nat (nth 0 i 0 + 5 * nth 1 i 0)))))) = Ok a /\
  nshape a = [3; 4; 2; 2] /\ nat_ a [2; 3; 1; 0] = Q2Qc (inject_Z 63).
Proof. eexists. split; [reflexivity|]. split; [reflexivity|]. apply Qc_is_canon. reflexivity. Qed.
(** Matrices as inputs and as outputs *)
Example C64_covfunc_matrix_example :
  lc_call (LamCov (F := QcF) [2; 2] [] [] true (fun _ _ => Ok ([], fun p q _ => fmul (p [0]) (q [0])))) (Nd [3; 2; 2] (fun _ => f0)) (Some (Nd [3; 2; 2] (fun _ => f0))) = Err AssertionError /\
  lc_call (LamCov (F := QcF) [] [2; 2] [] true (fun _ _ => Ok ([2; 2], fun p q _ => fmul (p []) (q [])))) (Nd [3] (fun _ => f0)) (Some (Nd [3] (fun _ => f0))) = Err ValueError.
Proof. split; reflexivity. Qed.
(** An operator from functions on the plane to functions on the line *)
Example C64_shapes_example :
  mk_lfo_lfo (CovShape [2] [3] [] [5]) (OpShape [2] [] [] [4]) (OpShape [3] [5] [3] []) = Ok (CovShape [] [3] [4] []) /\
  mk_functional_pv (CovShape [2] [3] [] [5]) (LfShape [3] [5] [7]) false = Ok (PvShape [2] [] [7] false) /\
  mk_functional_pv (CovShape [2] [3] [] [5]) (LfShape [3] [5] [7]) true = Err ValueError.
Proof. repeat split. Qed.

Print Assumptions C64_function.
Print Assumptions C64_function_errors.
Print Assumptions C64_function_integer_shape_refuted.
Print Assumptions C64_function_whole.
Print Assumptions C64_function_jax_small_refuted.
Print Assumptions C64_function_few_axes.
Print Assumptions C64_covfunc.
Print Assumptions C64_covfunc_one.
Print Assumptions C64_covfunc_refused.
Print Assumptions C64_covfunc_errors.
Print Assumptions C64_covfunc_matrix_inputs_refuted.
Print Assumptions C64_covfunc_matrix_outputs_refuted.
Print Assumptions C64_covfunc_whole.
Print Assumptions C64_operator_shapes.
Print Assumptions C64_operators_both.
Print Assumptions C64_functional_shapes.
Print Assumptions C64_functional_swap.
