(** Affine functions, stacked functions and the selection of their outputs (C54). *)
From Coq Require Import List Arith ZArith Bool Lia Qcanon.
From Verif Require Import Base NdArray NdData BlockModel CovModel CrossModel CrossKern ShapedModel ShapedSpec ShapedProofs.
Import ListNotations.
Local Open Scope nat_scope.

Section C54.
Context {F : fops}.

(** ** Calling a function *)
(** An input whose trailing axes are not the declared input shape is refused. *)
Theorem C54_input_refused (f : func F) (x : nd F) : (forall batch, nshape x <> batch ++ fn_in f) -> fn_call f x = Err ValueError.
Proof. intros H. unfold fn_call. now rewrite (batch_err _ _ H). Qed.
(** What is returned has the declared output shape at every point of the batch. *)
Theorem C54_output_shape (f : func F) (x a : nd F) batch : nshape x = batch ++ fn_in f ->
  fn_call f x = Ok a \/ fn_jax f x = Ok a -> nshape a = batch ++ fn_out f.
Proof.
  intros E [H|H].
  - unfold fn_call in H. rewrite (batch_ok _ _ _ E) in H. cbn in H. destruct (fn_ev f x) as [r|]; [|discriminate]. cbn in H.
    destruct (shape_eqb_spec (nshape r) (batch ++ fn_out f)); congruence.
  - unfold fn_jax in H. destruct (fn_evj f) as [ev|]; [|discriminate]. rewrite (prefix_ok _ _ _ E), E, broadcast_same in H.
    cbn in H. rewrite shape_eqb_refl in H. destruct (ev x) as [r|]; [|discriminate]. cbn in H.
    destruct (shape_eqb_spec (nshape r) (batch ++ fn_out f)); congruence.
Qed.
(** Functions without a JAX implementation have no [jax] method. *)
Theorem C54_no_jax (f : func F) x : fn_evj f = None -> fn_jax f x = Err AttributeError.
Proof. intros E. unfold fn_jax. now rewrite E. Qed.

Lemma broadcast_err a b e : broadcast_shapes a b = Err e -> e = ValueError.
Proof.
  unfold broadcast_shapes. assert (G : forall s t r, broadcast_rev s t = Err r -> r = ValueError).
  { induction s as [|x s IH]; intros [|y t] r; cbn; try discriminate. pose proof (IH t) as IHt.
    destruct (broadcast_rev s t) as [v|e']; cbn; destruct (x =? y), (x =? 1), (y =? 1); try discriminate; intros H; injection H as <-; auto. }
  intros H. destruct (broadcast_rev (rev a) (rev b)) as [r|r] eqn:R; cbn in H; [discriminate|]. injection H as <-. exact (G _ _ _ R).
Qed.
(** The JAX call in general: with [k] axes more than declared the first [k] are the batch;
    with [k] axes too few the batch is what remains of the input's axes after dropping the
    last [k].  The input has to broadcast to the batch followed by the declared shape. *)
Theorem C54_jax_call (f : func F) x ev b : fn_evj f = Some ev ->
  (length (fn_in f) <= length (nshape x) -> b = firstn (length (nshape x) - length (fn_in f)) (nshape x)) ->
  (length (nshape x) < length (fn_in f) -> b = firstn (length (nshape x) - (length (fn_in f) - length (nshape x))) (nshape x)) ->
  (broadcast_shapes (nshape x) (b ++ fn_in f) <> Ok (b ++ fn_in f) -> fn_jax f x = Err ValueError) /\
  (broadcast_shapes (nshape x) (b ++ fn_in f) = Ok (b ++ fn_in f) ->
    (forall e, ev x = Err e -> fn_jax f x = Err e) /\
    (forall a, ev x = Ok a -> nshape a = b ++ fn_out f -> fn_jax f x = Ok a) /\
    (forall a, ev x = Ok a -> nshape a <> b ++ fn_out f -> fn_jax f x = Err AssertionError)).
Proof.
  intros E H0 H1. assert (B : py_prefix (nshape x) (Z.of_nat (length (nshape x)) - Z.of_nat (length (fn_in f))) = b).
  { unfold py_prefix. destruct (Z.ltb_spec (Z.of_nat (length (nshape x)) - Z.of_nat (length (fn_in f))) 0) as [L|L].
    - rewrite H1 by lia. f_equal. lia.
    - rewrite H0 by lia. f_equal. lia. }
  unfold fn_jax. rewrite E. cbv zeta. rewrite B. split.
  - intros N. destruct (broadcast_shapes (nshape x) (b ++ fn_in f)) as [t|e] eqn:T; cbn [bind].
    + destruct (shape_eqb_spec t (b ++ fn_in f)) as [Q|]; [exfalso; apply N; now rewrite Q|reflexivity].
    + f_equal. exact (broadcast_err _ _ _ T).
  - intros ->. cbn [bind]. rewrite shape_eqb_refl. split; [intros e ->; reflexivity|]. split; intros a ->; cbn [bind]; intros Q; destruct (shape_eqb_spec (nshape a) (b ++ fn_out f)); congruence.
Qed.

(** ** Affine functions *)
(** A matrix [A]: [x -> A x + b], for batches of every shape, with NumPy and with JAX. *)
Theorem C54_affine_matrix (A b : nd F) m n : nshape A = [m; n] -> nshape b = [m] ->
  exists f, mk_affine A b = Ok f /\ fn_in f = [n] /\ fn_out f = [m] /\
    vectorises [n] [m] (fn_call f) (affine_matrix n A b) /\ vectorises [n] [m] (fn_jax f) (affine_matrix n A b).
Proof.
  intros EA Eb. pose proof (affine_matrix_vect A b m n EA Eb) as H.
  eexists. split; [unfold mk_affine; rewrite EA; cbn [bind]; rewrite Eb, shape_eqb_refl; reflexivity|].
  split; [reflexivity|]. split; [reflexivity|]. split.
  - exact (call_vect (mkfn [n] [m] (affine_eval A b [n]) (Some (affine_eval A b [n]))) _ H).
  - exact (jax_vect (mkfn [n] [m] (affine_eval A b [n]) (Some (affine_eval A b [n]))) _ _ eq_refl H).
Qed.
(** A number [A]: [x -> A x + b] likewise. *)
Theorem C54_affine_number (A b : nd F) : nshape A = [] -> nshape b = [] ->
  exists f, mk_affine A b = Ok f /\ fn_in f = [] /\ fn_out f = [] /\
    vectorises [] [] (fn_call f) (affine_number A b) /\ vectorises [] [] (fn_jax f) (affine_number A b).
Proof.
  intros EA Eb. pose proof (affine_number_vect A b EA Eb) as H.
  eexists. split; [unfold mk_affine; rewrite EA; cbn [bind]; rewrite Eb, shape_eqb_refl; reflexivity|].
  split; [reflexivity|]. split; [reflexivity|]. split.
  - exact (call_vect (mkfn [] [] (affine_eval A b []) (Some (affine_eval A b []))) _ H).
  - exact (jax_vect (mkfn [] [] (affine_eval A b []) (Some (affine_eval A b []))) _ _ eq_refl H).
Qed.
(** A vector [A]: [x -> A x + b] at a single number [x] ... *)
Theorem C54_affine_vector (A b x : nd F) m : nshape A = [m] -> nshape b = [m] -> nshape x = [] ->
  exists f a, mk_affine A b = Ok f /\ fn_in f = [] /\ fn_out f = [m] /\ fn_call f x = Ok a /\ fn_jax f x = Ok a /\
    nshape a = [m] /\ forall j, valid_index [m] j -> nat_ a j = affine_number A b (nat_ x) j.
Proof.
  intros EA Eb Ex. destruct (affine_vector_point A b x m EA Eb Ex) as [a [Ea [Es Hv]]].
  eexists. exists a. split; [unfold mk_affine; rewrite EA; cbn [bind]; rewrite Eb, shape_eqb_refl; reflexivity|].
  split; [reflexivity|]. split; [reflexivity|]. split; [|split; [|split; [exact Es|exact Hv]]].
  - unfold fn_call. cbn [fn_in fn_ev fn_out]. rewrite (batch_ok [] [] x Ex). cbn [bind]. rewrite Ea. cbn [bind app]. now rewrite Es, shape_eqb_refl.
  - unfold fn_jax. cbn [fn_in fn_evj fn_out]. rewrite (prefix_ok [] [] (nshape x) Ex), Ex. cbn [app]. rewrite broadcast_same. cbn [bind]. rewrite shape_eqb_refl, Ea. cbn [bind]. now rewrite Es, shape_eqb_refl.
Qed.
(** ... but at no batch of numbers: every evaluation with at least one batch axis raises. *)
Theorem C54_affine_vector_refuted (A b x : nd F) m f : nshape A = [m] -> nshape b = [m] -> mk_affine A b = Ok f -> nshape x <> [] ->
  (exists e, fn_call f x = Err e) /\ (exists e, fn_jax f x = Err e).
Proof.
  intros EA Eb Ef Ex. unfold mk_affine in Ef. rewrite EA in Ef. cbn [bind] in Ef. rewrite Eb, shape_eqb_refl in Ef. injection Ef as <-.
  assert (E : nshape x = nshape x ++ []) by now rewrite app_nil_r.
  assert (N : forall a, affine_eval A b [] x = Ok a -> shape_eqb (nshape a) (nshape x ++ [m]) = false).
  { intros a Ea. pose proof (affine_vector_batch A b x a m EA Ex Ea Eb) as L.
    destruct (shape_eqb_spec (nshape a) (nshape x ++ [m])) as [C|]; [|reflexivity].
    rewrite C, app_length in L. cbn in L. lia. }
  split.
  - unfold fn_call. cbn [fn_in fn_ev fn_out]. rewrite (batch_ok [] (nshape x) x E). cbn [bind].
    destruct (affine_eval A b [] x) as [a|e] eqn:Ea; cbn [bind]; [|now exists e]. rewrite (N a eq_refl). now eexists.
  - unfold fn_jax. cbn [fn_in fn_evj fn_out]. rewrite (prefix_ok [] (nshape x) (nshape x) E), app_nil_r, broadcast_same. cbn [bind].
    rewrite shape_eqb_refl. destruct (affine_eval A b [] x) as [a|e] eqn:Ea; cbn [bind]; [|now exists e]. rewrite (N a eq_refl). now eexists.
Qed.
(** Other shapes are refused. *)
Theorem C54_affine_refused (A b : nd F) :
  ~ (nshape A = [] /\ nshape b = []) -> ~ (exists m, nshape A = [m] /\ nshape b = [m]) ->
  ~ (exists m n, nshape A = [m; n] /\ nshape b = [m]) -> mk_affine A b = Err ValueError.
Proof.
  intros H0 H1 H2. unfold mk_affine. destruct (nshape A) as [|m [|n [|k s]]]; cbn [bind]; [| | |reflexivity].
  - destruct (shape_eqb_spec (nshape b) []); [now destruct H0|reflexivity].
  - destruct (shape_eqb_spec (nshape b) [m]); [destruct H1; now exists m|reflexivity].
  - destruct (shape_eqb_spec (nshape b) [m]); [destruct H2; now exists m, n|reflexivity].
Qed.
(** The check in [jax] lets a bare number pass for a point of one coordinate.  The matrix
    has one column then, and every output gets the slope of the first. *)
Theorem C54_affine_jax_refuted (A b x : nd F) m f : nshape A = [m; 1] -> nshape b = [m] -> 0 < m -> nshape x = [] -> mk_affine A b = Ok f ->
  fn_call f x = Err ValueError /\
  exists a, fn_jax f x = Ok a /\ nshape a = [m] /\
    forall j, valid_index [m] j -> nat_ a j = fadd (fadd (fmul (nat_ A [0; 0]) (nat_ x [])) f0) (nat_ b j).
Proof.
  intros EA Eb Hm Ex Ef. unfold mk_affine in Ef. rewrite EA in Ef. cbn [bind] in Ef. rewrite Eb, shape_eqb_refl in Ef. injection Ef as <-.
  split.
  - apply C54_input_refused. cbn [fn_in]. rewrite Ex. intros batch C. now destruct batch.
  - unfold fn_jax. cbn [fn_in fn_evj fn_out]. rewrite Ex. cbn [py_prefix length Z.of_nat Z.sub Z.ltb].
    cbn. unfold affine_eval, matvec_last. cbn [shape_eqb]. change (shape_eqb [1] []) with false. cbv iota. rewrite EA, Ex. cbn [rev Nat.eqb].
    destruct (Nat.eqb_spec m 0); [lia|]. cbn [bind]. unfold nd_bin. cbn [nshape]. rewrite Eb, broadcast_scalar_l. cbn [bind nshape app].
    rewrite shape_eqb_refl. eexists. split; [reflexivity|]. split; [reflexivity|]. intros j Hj. cbn [nat_ seq map fsum fold_right].
    now rewrite (operand_index_id [m] j Hj).
Qed.

(** ** Stacked functions *)
(** Stacking [n] functions with the same shapes along an output axis: entry [k] on the new
    axis is the value of function [k], at every point of a batch of any shape if the axis
    is counted from the end.  [C54_stack_point] has no batch and any axis. *)
Theorem C54_stack (fns : list (func F)) z insh outsh a (v : nat -> (index -> F) -> index -> F) :
  fns <> [] -> (forall g, In g fns -> fn_in g = insh /\ fn_out g = outsh) -> axis_is z (length outsh) a -> (z < 0)%Z ->
  exists s, mk_stacked fns z = Ok s /\ st_fns s = fns /\ st_axis s = z /\ fn_in (st_fn s) = insh /\ fn_out (st_fn s) = with_axis a (length fns) outsh /\
  forall call, (call = fn_call \/ call = fn_jax) ->
  (forall k g, nth_error fns k = Some g -> vectorises insh outsh (call g) (v k)) ->
  forall x batch, nshape x = batch ++ insh ->
  exists r, call (st_fn s) x = Ok r /\ nshape r = batch ++ with_axis a (length fns) outsh /\
    forall b k j, valid_index batch b -> k < length fns -> valid_index outsh j ->
      nat_ r (b ++ with_axis a k j) = v k (fun i => nat_ x (b ++ i)) j.
Proof.
  intros NE Hs Ha Hz. rewrite (mk_stacked_ok fns z insh outsh a NE Hs Ha). eexists. split; [reflexivity|].
  split; [reflexivity|]. split; [reflexivity|]. split; [reflexivity|]. split; [reflexivity|].
  intros call C Hv x batch Ex.
  destruct (stack_values call fns z insh outsh v x batch (length batch + a) NE Hv Ex (axis_shift _ _ _ _ Ha Hz)) as [r [Er [Es Hr]]].
  rewrite with_axis_app in Es. exists r. split; [|split; [exact Es|]].
  - destruct C as [->| ->]; cbn [st_fn].
    + unfold fn_call at 1. cbn [fn_in fn_ev fn_out]. rewrite (batch_ok _ _ _ Ex). cbn [bind]. rewrite Er. cbn [bind]. now rewrite Es, shape_eqb_refl.
    + unfold fn_jax at 1. cbn [fn_in fn_evj fn_out]. rewrite (prefix_ok _ _ _ Ex), Ex, broadcast_same. cbn [bind]. rewrite shape_eqb_refl, Er. cbn [bind]. now rewrite Es, shape_eqb_refl.
  - intros b k j Hb Hk Hj. rewrite <- (Hr k b j Hk Hb Hj). rewrite <- with_axis_app. now rewrite (valid_index_length _ _ Hb).
Qed.
Theorem C54_stack_point (fns : list (func F)) z insh outsh a (v : nat -> (index -> F) -> index -> F) :
  fns <> [] -> (forall g, In g fns -> fn_in g = insh /\ fn_out g = outsh) -> axis_is z (length outsh) a ->
  exists s, mk_stacked fns z = Ok s /\
  forall call, (call = fn_call \/ call = fn_jax) ->
  (forall k g, nth_error fns k = Some g -> vectorises insh outsh (call g) (v k)) ->
  forall x, nshape x = insh ->
  exists r, call (st_fn s) x = Ok r /\ nshape r = with_axis a (length fns) outsh /\
    forall k j, k < length fns -> valid_index outsh j -> nat_ r (with_axis a k j) = v k (nat_ x) j.
Proof.
  intros NE Hs Ha. rewrite (mk_stacked_ok fns z insh outsh a NE Hs Ha). eexists. split; [reflexivity|].
  intros call C Hv x Ex.
  destruct (stack_values call fns z insh outsh v x [] a NE Hv Ex Ha) as [r [Er [Es Hr]]].
  cbn [app] in Es. exists r. split; [|split; [exact Es|]].
  - destruct C as [->| ->]; cbn [st_fn].
    + unfold fn_call at 1. cbn [fn_in fn_ev fn_out]. rewrite (batch_ok _ [] _ Ex). cbn [bind app]. rewrite Er. cbn [bind]. now rewrite Es, shape_eqb_refl.
    + unfold fn_jax at 1. cbn [fn_in fn_evj fn_out]. rewrite (prefix_ok _ [] _ Ex), Ex. cbn [app]. rewrite broadcast_same. cbn [bind]. rewrite shape_eqb_refl, Er. cbn [bind]. now rewrite Es, shape_eqb_refl.
  - intros k j Hk Hj. exact (Hr k [] j Hk (Forall2_nil _) Hj).
Qed.
(** For an axis counted from the front, the same number is used in the array of all values,
    batch axes included: the call fails, or, if the shapes happen to agree, the values
    sit at the wrong places. *)
Theorem C54_stack_front_refuted (fns : list (func F)) z insh outsh a (v : nat -> (index -> F) -> index -> F) s :
  fns <> [] -> (forall g, In g fns -> fn_in g = insh /\ fn_out g = outsh) -> z = Z.of_nat a -> a <= length outsh -> mk_stacked fns z = Ok s ->
  (forall k g, nth_error fns k = Some g -> vectorises insh outsh (fn_call g) (v k)) ->
  forall x batch, nshape x = batch ++ insh ->
  (with_axis a (length fns) (batch ++ outsh) <> batch ++ with_axis a (length fns) outsh -> fn_call (st_fn s) x = Err AssertionError) /\
  (with_axis a (length fns) (batch ++ outsh) = batch ++ with_axis a (length fns) outsh ->
   exists r, fn_call (st_fn s) x = Ok r /\
    forall b k j, valid_index batch b -> k < length fns -> valid_index outsh j ->
      nat_ r (with_axis a k (b ++ j)) = v k (fun i => nat_ x (b ++ i)) j).
Proof.
  intros NE Hs -> La Ms Hv x batch Ex.
  rewrite (mk_stacked_ok fns _ insh outsh a NE Hs (conj La (or_introl eq_refl))) in Ms. injection Ms as <-. cbn [st_fn].
  assert (Hp : axis_is (Z.of_nat a) (length batch + length outsh) a) by (split; [lia|now left]).
  destruct (stack_values fn_call fns (Z.of_nat a) insh outsh v x batch a NE Hv Ex Hp) as [r [Er [Es Hr]]].
  unfold fn_call at 1 3. cbn [fn_in fn_ev fn_out]. rewrite (batch_ok _ _ _ Ex). cbn [bind]. rewrite Er. cbn [bind]. rewrite Es.
  destruct (shape_eqb_spec (with_axis a (length fns) (batch ++ outsh)) (batch ++ with_axis a (length fns) outsh)) as [E|N]; split; try congruence.
  intros _. exists r. split; [reflexivity|]. auto.
Qed.
(** Errors of the constructor. *)
Theorem C54_stack_errors (fns : list (func F)) z :
  (fns = [] -> mk_stacked fns z = Err IndexError) /\
  (forall g h, In g fns -> In h fns -> fn_in g <> fn_in h -> mk_stacked fns z = Err AssertionError) /\
  (forall insh, fns <> [] -> (forall g, In g fns -> fn_in g = insh) ->
     (forall g h, In g fns -> In h fns -> fn_out g <> fn_out h -> mk_stacked fns z = Err ValueError) /\
     (forall outsh, (forall g, In g fns -> fn_out g = outsh) -> (forall a, ~ axis_is z (length outsh) a) -> mk_stacked fns z = Err ValueError)).
Proof.
  split; [now intros ->|]. split.
  - intros g h Hg Hh N. destruct fns as [|f fns]; [contradiction|]. unfold mk_stacked.
    destruct (forallb (fun g0 => shape_eqb (fn_in g0) (fn_in f)) (f :: fns)) eqn:E; [|reflexivity].
    rewrite forallb_forall in E. exfalso. apply N. pose proof (E g Hg). pose proof (E h Hh).
    destruct (shape_eqb_spec (fn_in g) (fn_in f)), (shape_eqb_spec (fn_in h) (fn_in f)); congruence.
  - intros insh NE Hi. destruct fns as [|f fns]; [congruence|]. unfold mk_stacked. rewrite (Hi f (or_introl eq_refl)).
    replace (forallb (fun g => shape_eqb (fn_in g) insh) (f :: fns)) with true.
    2:{ symmetry. apply forallb_forall. intros g Hg. rewrite (Hi g Hg). apply shape_eqb_refl. }
    set (es := map (fun g : func F => Nd (fn_out g) (fun _ => @f0 F)) (f :: fns)). split.
    + intros g h Hg Hh N. rewrite (np_stack_shape_err es z (Nd (fn_out g) (fun _ => f0)) (Nd (fn_out h) (fun _ => f0))); [reflexivity| | |exact N];
      unfold es; apply in_map_iff; [now exists g|now exists h].
    + intros outsh Ho Ha. rewrite (np_stack_axis_err es outsh z); [reflexivity| |exact Ha].
      intros k d Hk. assert (I : In (nth k es d) es) by now apply nth_In. apply in_map_iff in I as [g [<- Hg]]. now apply Ho.
Qed.
(** [stack(fns)] stacks along the last axis. *)
Theorem C54_stack_default (fns : list (func F)) insh outsh :
  fns <> [] -> (forall g, In g fns -> fn_in g = insh /\ fn_out g = outsh) ->
  exists s, stack_default fns = Ok s /\ st_fns s = fns /\ fn_in (st_fn s) = insh /\ fn_out (st_fn s) = outsh ++ [length fns].
Proof.
  intros NE Hs. assert (Ha : axis_is (-1) (length outsh) (length outsh)) by (split; [lia|right; lia]).
  destruct (C54_stack fns (-1) insh outsh (length outsh) (fun _ _ _ => f0) NE Hs Ha ltac:(lia)) as [s [Es [Ef [_ [Ei [Eo _]]]]]].
  exists s. split; [exact Es|]. split; [exact Ef|]. split; [exact Ei|]. rewrite Eo. unfold with_axis. now rewrite firstn_all, skipn_all.
Qed.

(** ** Selecting an output *)
(** For stacked scalar functions, selecting output [i] (from the end if negative) returns
    the [i]-th function, and its values are the [i]-th entries of the values of the
    stacked function, at every batch. *)
Theorem C54_select (fns : list (func F)) insh i k (v : nat -> (index -> F) -> index -> F) :
  (forall g, In g fns -> fn_in g = insh /\ fn_out g = []) -> position_is i (length fns) k ->
  (forall k' g, nth_error fns k' = Some g -> vectorises insh [] (fn_call g) (v k')) ->
  exists s g, stack_default fns = Ok s /\ select_output (OInt i) s = Ok g /\ nth_error fns k = Some g /\
  forall x batch, nshape x = batch ++ insh ->
  exists r q, fn_call (st_fn s) x = Ok r /\ fn_call g x = Ok q /\ nshape q = batch /\
    forall b, valid_index batch b -> nat_ q b = nat_ r (b ++ [k]).
Proof.
  intros Hs Hk Hv. assert (NE : fns <> []) by (intros ->; destruct Hk as [L _]; cbn in L; lia).
  assert (Ha : axis_is (-1) (length (@nil nat)) 0) by (split; [cbn; lia|right; cbn; lia]).
  destruct (C54_stack fns (-1) insh [] 0 v NE Hs Ha ltac:(lia)) as [s [Es [Ef [_ [_ [Eo H]]]]]].
  assert (Lk : k < length fns) by apply Hk.
  destruct (nth_error fns k) as [g|] eqn:Eg; [|apply nth_error_None in Eg; lia].
  exists s, g. split; [exact Es|]. split.
  - unfold select_output. rewrite Eo, Ef. cbn. now apply (py_nth_ok fns i k).
  - split; [reflexivity|]. intros x batch Ex. destruct (H fn_call (or_introl eq_refl) Hv x batch Ex) as [r [Er [_ Hr]]].
    destruct (Hv k g Eg x batch Ex) as [q [Eq [Sq Hq]]]. exists r, q. rewrite app_nil_r in Sq. repeat split; try assumption.
    intros b Hb. pose proof (Hr b k [] Hb Lk (Forall2_nil _)) as E1. pose proof (Hq b [] Hb (Forall2_nil _)) as E2.
    cbn in E1. rewrite app_nil_r in E2. congruence.
Qed.
(** Wrong positions, tuples and outputs with other than one axis are refused. *)
Theorem C54_select_errors (s : stacked F) :
  (forall l, select_output (OTup l) s = Err AssertionError) /\
  (forall i, length (fn_out (st_fn s)) <> 1 -> select_output (OInt i) s = Err AssertionError) /\
  (forall i, length (fn_out (st_fn s)) = 1 -> (forall k, ~ position_is i (length (st_fns s)) k) -> select_output (OInt i) s = Err IndexError).
Proof.
  split; [reflexivity|]. split; intros i N; unfold select_output.
  - destruct (Nat.eqb_spec (length (fn_out (st_fn s))) 1); [contradiction|reflexivity].
  - intros H. rewrite N. cbn. now apply py_nth_err.
Qed.
End C54.

(** ** Examples *)
Local Definition q (n : nat) : QcF := @fnat QcF n.
Local Definition vec (l : list nat) : nd QcF := Nd [length l] (fun i => q (nth (nth 0 i 0) l 0)).
Local Definition mx (m n : nat) (l : list nat) : nd QcF := Nd [m; n] (fun i => q (nth (nth 0 i 0 * n + nth 1 i 0) l 0)).
Local Definition num (k : nat) : nd QcF := Nd [] (fun _ => q k).
Local Definition affine (A b : nd QcF) : func QcF := match mk_affine A b with Ok f => f | Err _ => mkfn [] [] (fun _ => Err Unmodelled) None end.
Local Definition entries (r : result (nd QcF)) : result (shape * list QcF) :=
  bind r (fun a => Ok (nshape a, map (nat_ a) (all_indices (nshape a)))).

(** [x -> (1 2; 3 4) x + (5, 6)] at two points *)
Example C54_ex_matrix : entries (fn_call (affine (mx 2 2 [1; 2; 3; 4]) (vec [5; 6])) (mx 2 2 [1; 0; 1; 1])) = Ok ([2; 2], map q [6; 9; 8; 13]).
Proof. vm_compute. repeat f_equal; apply Qc_is_canon; reflexivity. Qed.
(** [x -> (1, 2) x + (0, 1)] at 3 and at the batch (3, 4): the batch fails *)
Example C54_ex_vector : entries (fn_call (affine (vec [1; 2]) (vec [0; 1])) (num 3)) = Ok ([2], map q [3; 7]) /\
  fn_call (affine (vec [1; 2]) (vec [0; 1])) (vec [3; 4]) = Err AssertionError.
Proof. split; [vm_compute; repeat f_equal; apply Qc_is_canon; reflexivity|reflexivity]. Qed.
(** [jax] of the column (1; 2) at the number 3 gives (3, 3) instead of (3, 6). *)
Example C54_ex_jax : entries (fn_jax (affine (mx 2 1 [1; 2]) (vec [0; 0])) (num 3)) = Ok ([2], map q [3; 3]) /\
  entries (fn_jax (affine (mx 2 1 [1; 2]) (vec [0; 0])) (vec [3])) = Ok ([2], map q [3; 6]).
Proof. split; vm_compute; repeat f_equal; apply Qc_is_canon; reflexivity. Qed.

(** A JAX function of 2x3 arrays that takes the sum over its entries: a vector of three
    entries passes, and the result is not that of the broadcast input. *)
Example C54_ex_jax_axes : exists f x ev, fn_in f = [2; 3] /\ fn_evj f = Some ev /\ nshape x = [3] /\
  broadcast_shapes (nshape x) ([] ++ fn_in f) = Ok ([] ++ fn_in f) /\ entries (fn_jax f x) = Ok ([], map q [6]).
Proof.
  pose (ev := fun x : nd QcF => Ok (Nd [] (fun _ => fsum (map (fun j => nat_ x [j]) (seq 0 3)))) : result (nd QcF)).
  exists (mkfn [2; 3] [] ev (Some ev)), (vec [1; 2; 3]), ev. repeat split; vm_compute; repeat f_equal; apply Qc_is_canon; reflexivity.
Qed.

Local Definition pair_fn z : result (stacked QcF) := mk_stacked [affine (num 1) (num 0); affine (num 10) (num 0)] z.
Local Definition call_pair z (x : nd QcF) : result (nd QcF) := bind (pair_fn z) (fun s => fn_call (st_fn s) x).
(** Stacked (x, 10 x) at (1, 2, 3), at (1, 2) with axis 0: transposed *)
Example C54_ex_stack : entries (call_pair (-1) (vec [1; 2; 3])) = Ok ([3; 2], map q [1; 10; 2; 20; 3; 30]) /\
  call_pair 0 (vec [1; 2; 3]) = Err AssertionError /\
  entries (call_pair (-1) (vec [1; 2])) = Ok ([2; 2], map q [1; 10; 2; 20]) /\
  entries (call_pair 0 (vec [1; 2])) = Ok ([2; 2], map q [1; 2; 10; 20]).
Proof. repeat split; vm_compute; repeat f_equal; apply Qc_is_canon; reflexivity. Qed.
Example C54_ex_select : entries (bind (pair_fn (-1)) (fun s => bind (select_output (OInt (-1)) s) (fun g => fn_call g (vec [1; 2])))) = Ok ([2], map q [10; 20]) /\
  bind (pair_fn (-1)) (select_output (OInt 2)) = Err IndexError.
Proof. repeat split; vm_compute; repeat f_equal; apply Qc_is_canon; reflexivity. Qed.
(** The two functions meet the hypotheses of [C54_stack] and [C54_select]. *)
Example C54_ex_hyp : (forall g, In g [affine (num 1) (num 0); affine (num 10) (num 0)] -> fn_in g = [] /\ fn_out g = []) /\
  axis_is (-1) (length (@nil nat)) 0 /\ position_is (-1) 2 1 /\
  (forall k g, nth_error [affine (num 1) (num 0); affine (num 10) (num 0)] k = Some g ->
    vectorises [] [] (fn_call g) (affine_number (num (match k with 0 => 1 | _ => 10 end)) (num 0))).
Proof.
  split; [intros g [<-|[<-|[]]]; split; reflexivity|]. split; [split; cbn; lia|]. split; [split; cbn; lia|].
  intros [|[|k]] g E; cbn [nth_error] in E; [| |now destruct k];
  (injection E as <-; match goal with |- context [affine ?A ?b] => destruct (C54_affine_number A b eq_refl eq_refl) as [f [Ef [_ [_ [H _]]]]]; unfold affine; rewrite Ef; exact H end).
Qed.
