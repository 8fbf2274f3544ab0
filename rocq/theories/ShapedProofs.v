(** Proofs about affine and stacked functions. *)
From Coq Require Import List Arith ZArith Bool Lia.
From Verif Require Import Base NdArray NdData BlockModel CovModel CrossModel CrossKern ShapedModel ShapedSpec.
Import ListNotations.
Local Open Scope nat_scope.

(** ** Broadcasting along trailing axes *)
Lemma broadcast_rev_prefix s t : broadcast_rev (s ++ t) s = Ok (s ++ t).
Proof.
  induction s as [|d s IH]; cbn; [now destruct t|]. now rewrite Nat.eqb_refl, IH.
Qed.
Lemma broadcast_trailing batch s : broadcast_shapes (batch ++ s) s = Ok (batch ++ s).
Proof.
  unfold broadcast_shapes. rewrite rev_app_distr, broadcast_rev_prefix. cbn. now rewrite rev_app_distr, !rev_involutive.
Qed.
Lemma operand_trailing s b j : valid_index s j -> operand_index s (b ++ j) = j.
Proof.
  intros H. rewrite <- (operand_index_id s j H) at 2. unfold operand_index. f_equal. f_equal.
  rewrite app_length, (valid_index_length _ _ H).
  replace (length b + length s - length s) with (length b) by lia.
  rewrite skipn_app, skipn_all, Nat.sub_diag. cbn [skipn app]. now rewrite Nat.sub_diag.
Qed.
Lemma broadcast_rev_rank a b r : broadcast_rev a b = Ok r -> length r = Nat.max (length a) (length b).
Proof.
  revert b r. induction a as [|x a IH]; intros b r; cbn; [intros [= <-]; now destruct b|].
  destruct b as [|y b]; [intros [= <-]; reflexivity|].
  destruct (x =? y); [|destruct (x =? 1); [|destruct (y =? 1); [|discriminate]]];
  (destruct (broadcast_rev a b) as [q|] eqn:E; [|discriminate]; intros [= <-]; cbn; now rewrite (IH _ _ E)).
Qed.
Lemma broadcast_rank a b r : broadcast_shapes a b = Ok r -> length r = Nat.max (length a) (length b).
Proof.
  unfold broadcast_shapes. destruct (broadcast_rev (rev a) (rev b)) as [q|] eqn:E; [|discriminate].
  intros [= <-]. apply broadcast_rev_rank in E. now rewrite rev_length, E, !rev_length.
Qed.

Section Proofs.
Context {F : fops}.

(** ** The call protocol *)
Lemma batch_ok (insh batch : shape) (x : nd F) : nshape x = batch ++ insh -> batch_shape insh x = Ok batch.
Proof.
  intros E. unfold batch_shape. rewrite E, app_length.
  replace (length batch + length insh - length insh) with (length batch) by lia.
  rewrite skipn_app, skipn_all, Nat.sub_diag, firstn_app, firstn_all, Nat.sub_diag. cbn [skipn firstn app].
  now rewrite shape_eqb_refl, app_nil_r.
Qed.
Lemma batch_err (insh : shape) (x : nd F) : (forall batch, nshape x <> batch ++ insh) -> batch_shape insh x = Err ValueError.
Proof.
  intros H. unfold batch_shape. destruct (shape_eqb_spec (skipn (length (nshape x) - length insh) (nshape x)) insh) as [E|]; [|reflexivity].
  exfalso. apply (H (firstn (length (nshape x) - length insh) (nshape x))). etransitivity; [symmetry; apply (firstn_skipn (length (nshape x) - length insh))|]. now rewrite E.
Qed.
Lemma prefix_ok (insh batch : shape) s : s = batch ++ insh -> py_prefix s (Z.of_nat (length s) - Z.of_nat (length insh)) = batch.
Proof.
  intros ->. unfold py_prefix. rewrite app_length.
  replace (Z.of_nat (length batch + length insh) - Z.of_nat (length insh))%Z with (Z.of_nat (length batch)) by lia.
  destruct (Z.ltb_spec (Z.of_nat (length batch)) 0); [lia|]. rewrite Nat2Z.id, firstn_app, firstn_all, Nat.sub_diag.
  cbn. apply app_nil_r.
Qed.
Lemma call_vect (f : func F) v : vectorises (fn_in f) (fn_out f) (fn_ev f) v -> vectorises (fn_in f) (fn_out f) (fn_call f) v.
Proof.
  intros H x batch E. destruct (H x batch E) as [a [Ea [Es Hv]]]. exists a. split; [|now split].
  unfold fn_call. rewrite (batch_ok _ _ _ E). cbn. rewrite Ea. cbn. now rewrite Es, shape_eqb_refl.
Qed.
Lemma jax_vect (f : func F) ev v : fn_evj f = Some ev -> vectorises (fn_in f) (fn_out f) ev v ->
  vectorises (fn_in f) (fn_out f) (fn_jax f) v.
Proof.
  intros Ej H x batch E. destruct (H x batch E) as [a [Ea [Es Hv]]]. exists a. split; [|now split].
  unfold fn_jax. rewrite Ej, (prefix_ok _ _ _ E), E, broadcast_same. cbn. rewrite shape_eqb_refl, Ea. cbn. now rewrite Es, shape_eqb_refl.
Qed.

(** ** Affine functions *)
Lemma last_app1 (l : list nat) k : last (l ++ [k]) 0 = k.
Proof. apply last_last. Qed.
Lemma removelast_app1 (l : list nat) k : removelast (l ++ [k]) = l.
Proof. rewrite removelast_app by discriminate. cbn. apply app_nil_r. Qed.

Lemma affine_matrix_vect (A b : nd F) m n : nshape A = [m; n] -> nshape b = [m] ->
  vectorises [n] [m] (affine_eval A b [n]) (affine_matrix n A b).
Proof.
  intros EA Eb x batch E. unfold affine_eval. cbn. unfold matvec_last. rewrite EA, E, rev_app_distr. cbn. rewrite Nat.eqb_refl. cbn.
  unfold nd_bin. cbn [nshape]. rewrite Eb, rev_involutive, broadcast_trailing. cbn [bind]. eexists. split; [reflexivity|]. split; [reflexivity|].
  intros i j Hi Hj. cbn [nat_ nshape]. unfold affine_matrix.
  rewrite (operand_index_id (batch ++ [m])) by now apply valid_index_app. rewrite operand_trailing by exact Hj.
  inversion Hj as [|k ? t ? Hk Ht]; subst. inversion Ht; subst. now rewrite last_app1, removelast_app1.
Qed.
Lemma affine_number_vect (A b : nd F) : nshape A = [] -> nshape b = [] ->
  vectorises [] [] (affine_eval A b []) (affine_number A b).
Proof.
  intros EA Eb x batch E. rewrite app_nil_r in E. unfold affine_eval. cbn [shape_eqb list_eq_dec list_rect].
  change (shape_eqb [] []) with true. cbv iota. unfold nd_bin at 1. rewrite EA, broadcast_scalar_l. cbn [bind].
  unfold nd_bin. cbn [nshape]. rewrite Eb, E. pose proof (broadcast_trailing batch []) as B. rewrite app_nil_r in B. rewrite B. cbn [bind].
  eexists. split; [reflexivity|]. split; [symmetry; apply app_nil_r|].
  intros i j Hi Hj. apply valid_index_nil in Hj. subst j. cbn [nat_ nshape]. rewrite !app_nil_r. unfold affine_number.
  assert (O : operand_index [] i = []) by (rewrite <- (app_nil_r i); apply operand_trailing; constructor).
  now rewrite !(operand_index_id batch i Hi), O, app_nil_r.
Qed.
Lemma affine_vector_point (A b x : nd F) m : nshape A = [m] -> nshape b = [m] -> nshape x = [] ->
  exists a, affine_eval A b [] x = Ok a /\ nshape a = [m] /\ forall j, valid_index [m] j -> nat_ a j = affine_number A b (nat_ x) j.
Proof.
  intros EA Eb E. unfold affine_eval. change (shape_eqb [] []) with true. cbv iota. unfold nd_bin at 1. rewrite EA, E.
  pose proof (broadcast_trailing [m] []) as B. rewrite app_nil_r in B. rewrite B. cbn [bind].
  unfold nd_bin. cbn [nshape]. rewrite Eb, broadcast_same. cbn [bind]. eexists. split; [reflexivity|]. split; [reflexivity|].
  intros j Hj. cbn [nat_ nshape]. unfold affine_number. rewrite !(operand_index_id [m] j Hj).
  assert (O : operand_index [] j = []) by (rewrite <- (app_nil_r j); apply operand_trailing; constructor).
  now rewrite O.
Qed.
Lemma affine_vector_batch (A b x a : nd F) m : nshape A = [m] -> nshape x <> [] -> affine_eval A b [] x = Ok a -> nshape b = [m] ->
  length (nshape a) = length (nshape x).
Proof.
  intros EA Ex. unfold affine_eval. change (shape_eqb [] []) with true. cbv iota. unfold nd_bin at 1. rewrite EA.
  destruct (broadcast_shapes [m] (nshape x)) as [s|] eqn:E1; [|discriminate]. cbn [bind]. unfold nd_bin. cbn [nshape].
  destruct (broadcast_shapes s (nshape b)) as [t|] eqn:E2; [|discriminate]. cbn [bind]. intros [= <-] Eb. cbn [nshape].
  apply broadcast_rank in E1, E2. rewrite Eb in E2. destruct (nshape x); [congruence|]. cbn in *. lia.
Qed.

(** ** Stacking *)
Lemma norm_axis_ok z d a : axis_is z d a -> norm_axis z d = Ok a.
Proof.
  intros [L [->| ->]]; unfold norm_axis.
  - destruct (Z.leb_spec (- Z.of_nat d - 1) (Z.of_nat a)); [|lia]. destruct (Z.leb_spec (Z.of_nat a) (Z.of_nat d)); [|lia]. cbn [andb].
    destruct (Z.ltb_spec (Z.of_nat a) 0); [lia|]. now rewrite Nat2Z.id.
  - set (z := (Z.of_nat a - Z.of_nat d - 1)%Z). destruct (Z.leb_spec (- Z.of_nat d - 1) z); [|lia].
    destruct (Z.leb_spec z (Z.of_nat d)); [|lia]. cbn [andb]. destruct (Z.ltb_spec z 0); [|lia]. f_equal. lia.
Qed.
Lemma norm_axis_err z d : (forall a, ~ axis_is z d a) -> norm_axis z d = Err ValueError.
Proof.
  intros H. unfold norm_axis. destruct (Z.leb_spec (- Z.of_nat d - 1) z) as [L1|]; [|reflexivity]. destruct (Z.leb_spec z (Z.of_nat d)) as [L2|]; [|reflexivity].
  exfalso. destruct (Z.ltb_spec z 0).
  - apply (H (Z.to_nat (z + Z.of_nat d + 1))). split; lia.
  - apply (H (Z.to_nat z)). split; lia.
Qed.
Lemma with_axis_app a k b j : with_axis (length b + a) k (b ++ j) = b ++ with_axis a k j.
Proof.
  unfold with_axis. rewrite firstn_app, skipn_app, firstn_all2, skipn_all2 by lia.
  replace (length b + a - length b) with a by lia. now rewrite <- app_assoc.
Qed.
Lemma nth_with_axis a k l : a <= length l -> nth a (with_axis a k l) 0 = k.
Proof.
  intros L. unfold with_axis. rewrite app_nth2; rewrite firstn_length_le by lia; [|lia]. now rewrite Nat.sub_diag.
Qed.
Lemma remove_with_axis a k l : a <= length l -> remove_at a (with_axis a k l) = l.
Proof.
  intros L. unfold remove_at, with_axis. assert (E : length (firstn a l) = a) by now apply firstn_length_le.
  rewrite <- (firstn_skipn a l) at 5. f_equal.
  - rewrite firstn_app, E, Nat.sub_diag. cbn [firstn]. rewrite app_nil_r. apply firstn_all2. lia.
  - rewrite skipn_app, E, skipn_all2 by lia. now replace (S a - a) with 1 by lia.
Qed.
Lemma axis_shift z d a p : axis_is z d a -> (z < 0)%Z -> axis_is z (p + d) (p + a).
Proof. intros [L [->| ->]] N; [lia|]. split; [lia|]. right. lia. Qed.

Lemma np_stack_ok (l : list (nd F)) s z a : l <> [] -> (forall k d, k < length l -> nshape (nth k l d) = s) -> axis_is z (length s) a ->
  exists r, np_stack l z = Ok r /\ nshape r = with_axis a (length l) s /\
    forall k i d, k < length l -> length i = length s -> nat_ r (with_axis a k i) = nat_ (nth k l d) i.
Proof.
  intros NE Hs Ha. destruct l as [|e l]; [congruence|]. clear NE. unfold np_stack.
  assert (Ee : nshape e = s) by (apply (Hs 0 e); cbn; lia).
  replace (forallb (fun a0 => shape_eqb (nshape a0) (nshape e)) (e :: l)) with true.
  - rewrite Ee, (norm_axis_ok _ _ _ Ha). cbn [bind]. eexists. split; [reflexivity|]. split; [reflexivity|].
    intros k i d Hk Hi. cbn [nat_]. destruct Ha as [L _]. rewrite nth_with_axis, remove_with_axis by lia. now rewrite (nth_indep _ _ d Hk).
  - symmetry. apply forallb_forall. intros x Hx. apply (In_nth _ _ e) in Hx as [k [Hk <-]]. rewrite Ee, (Hs k e Hk). apply shape_eqb_refl.
Qed.
Lemma np_stack_axis_err (l : list (nd F)) s z : (forall k d, k < length l -> nshape (nth k l d) = s) ->
  (forall a, ~ axis_is z (length s) a) -> np_stack l z = Err ValueError.
Proof.
  intros Hs Ha. unfold np_stack. destruct l as [|e l]; [reflexivity|]. assert (Ee : nshape e = s) by (apply (Hs 0 e); cbn; lia). rewrite Ee.
  rewrite (norm_axis_err _ _ Ha). now destruct forallb.
Qed.
Lemma np_stack_shape_err (l : list (nd F)) z a b : In a l -> In b l -> nshape a <> nshape b -> np_stack l z = Err ValueError.
Proof.
  intros Ia Ib N. unfold np_stack. destruct l as [|e l]; [reflexivity|].
  destruct (forallb (fun a0 => shape_eqb (nshape a0) (nshape e)) (e :: l)) eqn:E; [|reflexivity].
  rewrite forallb_forall in E. exfalso. apply N. pose proof (E a Ia) as Ea. pose proof (E b Ib) as Eb.
  destruct (shape_eqb_spec (nshape a) (nshape e)), (shape_eqb_spec (nshape b) (nshape e)); congruence.
Qed.

(** Values of stacked evaluations: the new axis is inserted into the whole array. *)
Lemma stack_values (ev : func F -> nd F -> result (nd F)) fns z insh outsh (v : nat -> (index -> F) -> index -> F) x batch p :
  fns <> [] -> (forall k g, nth_error fns k = Some g -> vectorises insh outsh (ev g) (v k)) ->
  nshape x = batch ++ insh -> axis_is z (length batch + length outsh) p ->
  exists r, stack_eval ev fns z x = Ok r /\ nshape r = with_axis p (length fns) (batch ++ outsh) /\
    forall k b j, k < length fns -> valid_index batch b -> valid_index outsh j ->
      nat_ r (with_axis p k (b ++ j)) = v k (fun i => nat_ x (b ++ i)) j.
Proof.
  intros NE Hv Ex Hp. unfold stack_eval.
  destruct (mapR_nth (fun f => ev f x) (fun k a => nshape a = batch ++ outsh /\ forall b j, valid_index batch b -> valid_index outsh j -> nat_ a (b ++ j) = v k (fun i => nat_ x (b ++ i)) j) fns)
    as [vals [-> [L H]]].
  { intros k g E. destruct (Hv k g E x batch Ex) as [a [Ea Ha]]. now exists a. }
  cbn [bind]. destruct (np_stack_ok vals (batch ++ outsh) z p) as [r [Er [Es Hr]]].
  - intros ->. cbn in L. destruct fns; [congruence|discriminate].
  - intros k d Hk. apply H. congruence.
  - now rewrite app_length.
  - exists r. split; [exact Er|]. split; [now rewrite Es, L|]. intros k b j Hk Hb Hj.
    rewrite (Hr k (b ++ j) x) by (rewrite ?app_length, ?(valid_index_length _ _ Hb), ?(valid_index_length _ _ Hj); congruence).
    now apply (H k x Hk).
Qed.

Lemma mk_stacked_ok (fns : list (func F)) z insh outsh a : fns <> [] -> (forall g, In g fns -> fn_in g = insh /\ fn_out g = outsh) ->
  axis_is z (length outsh) a ->
  mk_stacked fns z = Ok (mkstacked fns z (mkfn insh (with_axis a (length fns) outsh) (stack_eval fn_call fns z) (Some (stack_eval fn_jax fns z)))).
Proof.
  intros NE Hs Ha. destruct fns as [|f fns]; [congruence|]. unfold mk_stacked.
  destruct (Hs f (or_introl eq_refl)) as [Ei Eo]. rewrite Ei.
  replace (forallb (fun g => shape_eqb (fn_in g) insh) (f :: fns)) with true.
  2:{ symmetry. apply forallb_forall. intros g Hg. rewrite (proj1 (Hs g Hg)). apply shape_eqb_refl. }
  destruct (np_stack_ok (map (fun g : func F => Nd (fn_out g) (fun _ => @f0 F)) (f :: fns)) outsh z a) as [r [Er [Es _]]].
  - discriminate.
  - intros k d Hk. rewrite map_length in Hk.
    assert (E : nth_error (map (fun g : func F => Nd (fn_out g) (fun _ => @f0 F)) (f :: fns)) k = Some (Nd (fn_out (nth k (f :: fns) f)) (fun _ => @f0 F))).
    { rewrite nth_error_map, (nth_error_nth' _ f Hk). reflexivity. }
    rewrite (nth_error_nth _ _ d E). cbn [nshape]. apply Hs. now apply nth_In.
  - exact Ha.
  - rewrite Er. cbn [bind]. rewrite Es, map_length. reflexivity.
Qed.

(** ** Python indexing *)
Lemma py_nth_ok {A} (l : list A) i k x : position_is i (length l) k -> nth_error l k = Some x -> py_nth l i = Ok x.
Proof.
  intros [L [->| ->]] E; unfold py_nth.
  - destruct (Z.ltb_spec (Z.of_nat k) 0); [lia|]. rewrite Nat2Z.id, E. destruct (Z.leb_spec (- Z.of_nat (length l)) (Z.of_nat k)); [reflexivity|lia].
  - set (z := (Z.of_nat k - Z.of_nat (length l))%Z). destruct (Z.ltb_spec z 0); [|lia].
    replace (Z.to_nat (z + Z.of_nat (length l))) with k by lia. rewrite E. destruct (Z.leb_spec (- Z.of_nat (length l)) z); [reflexivity|lia].
Qed.
Lemma py_nth_err {A} (l : list A) i : (forall k, ~ position_is i (length l) k) -> py_nth l i = Err IndexError.
Proof.
  intros H. unfold py_nth. destruct (Z.ltb_spec i 0).
  - destruct nth_error as [x|] eqn:E; [|reflexivity]. destruct (Z.leb_spec (- Z.of_nat (length l)) i); [|reflexivity].
    exfalso. apply (H (Z.to_nat (i + Z.of_nat (length l)))). split; lia.
  - destruct nth_error as [x|] eqn:E; [|reflexivity]. exfalso. apply (H (Z.to_nat i)).
    assert (Z.to_nat i < length l) by (apply nth_error_Some; congruence). split; lia.
Qed.
End Proofs.
