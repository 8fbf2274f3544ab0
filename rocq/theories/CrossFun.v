(** Lemmas about linear maps, stacks, evaluations and functionals of cross-covariances. *)
From Coq Require Import List Arith Lia Bool Permutation Ring Field_theory FunctionalExtensionality.
From Verif Require Import Base NdArray NdData BlockModel BlockSpec BlockProofs CovModel CovSpec CovProofs CrossModel CrossSpec CrossProofs CrossKern CrossViews.
Import ListNotations.

Section P.
Context {F : fops} (LF : flaws F).
Add Ring FRing : (F_R (fl_field _ LF)).
Implicit Types (p : pvcc F) (x : nd F) (b out rv sh : shape).
Notation value := (index -> index -> index -> F).

Lemma ravel1 n i : ravel [n] [i] = i.
Proof. cbn. lia. Qed.
Lemma valid1 n i : i < n -> valid_index [n] [i].
Proof. intros. repeat constructor. assumption. Qed.
Lemma valid1_inv n l : valid_index [n] l -> exists i, l = [i] /\ i < n.
Proof. intros H. inversion H as [|i r' l' s L H']; subst. inversion H'. now exists i. Qed.
Lemma size1 n : size [n] = n.
Proof. cbn. lia. Qed.
Lemma fsum_seq_ext (f g : nat -> F) n : (forall k, k < n -> f k = g k) -> fsum (map f (seq 0 n)) = fsum (map g (seq 0 n)).
Proof. intros H. f_equal. apply map_ext_in. intros k Hk. apply in_seq in Hk. apply H. lia. Qed.

(** ** Linear maps *)
Definition lin_value (A : mat F) (g : value) : value :=
  fun i o r => fsum (map (fun k => fmul (entry A (nth 0 r 0) k) (g i o [k])) (seq 0 (ncols A))).
Lemma plinop_is A p q : mk_plinop A p = Ok q -> q = PLinOp A p /\ p_rv p = [ncols A].
Proof.
  unfold mk_plinop. destruct (length (p_rv p) =? 1); [|discriminate]. destruct (shape_eqb_spec [ncols A] (p_rv p)) as [E|]; [|discriminate].
  intros [= <-]. auto.
Qed.
Lemma plinop_array A p q x b g a : mk_plinop A p = Ok q -> nshape x = b ++ p_in p -> p_call p x = Ok a ->
  cross_array a (p_rev p) b (p_out p) (p_rv p) g ->
  exists a', p_call q x = Ok a' /\ cross_array a' (p_rev p) b (p_out p) [nrows A] (lin_value A g).
Proof.
  intros M E Ea [Sa Va]. destruct (plinop_is _ _ _ M) as [-> R].
  apply (call_by (PLinOp A p) x b _ _ E (call_unfold_at (PLinOp A p) x b E)). rewrite Ea. cbn [bind p_rev p_out p_rv].
  rewrite R in Sa, Va. destruct (p_rev p).
  - destruct (lin_axis_ok A a [] (ncols A) (b ++ p_out p) Sa eq_refl) as [r [Er [Sr Vr]]]. cbn [length] in Er. rewrite Er.
    exists r. split; [reflexivity|]. split; [exact Sr|]. intros i o s Hi Ho Hs. apply valid1_inv in Hs as [m [-> Hm]].
    cbn [app]. specialize (Vr [] m (i ++ o) eq_refl). cbn [app] in Vr. rewrite Vr.
    2: { rewrite !app_length. apply valid_index_length in Hi, Ho. lia. }
    unfold lin_value. cbn [nth]. apply fsum_seq_ext. intros k Hk. f_equal. apply (Va i o [k] Hi Ho). now apply valid1.
  - rewrite app_assoc in Sa. destruct (lin_axis_ok A a (b ++ p_out p) (ncols A) [] Sa eq_refl) as [r [Er [Sr Vr]]].
    rewrite Sa. rewrite app_length. cbn [length]. replace (length (b ++ p_out p) + 1 - 1) with (length (b ++ p_out p)) by lia. rewrite Er.
    exists r. split; [reflexivity|]. split; [now rewrite Sr, <- app_assoc|]. intros i o s Hi Ho Hs. apply valid1_inv in Hs as [m [-> Hm]].
    rewrite app_assoc, Vr.
    2: { rewrite !app_length. apply valid_index_length in Hi, Ho. lia. } 2: reflexivity.
    unfold lin_value. cbn [nth]. apply fsum_seq_ext. intros k Hk. f_equal. rewrite <- app_assoc. apply (Va i o [k] Hi Ho). now apply valid1.
Qed.
Lemma plinop_shows A p q x b g : mk_plinop A p = Ok q -> pv_shows p x b g ->
  p_rev p = true \/ p_own_linop p x = Err NotImplementedError -> pv_shows q x b (lin_value A g).
Proof.
  intros M [E [[a [Ea Sa]] H]] D. pose proof (plinop_array A p q x b g a M E Ea Sa) as HA.
  destruct (plinop_is _ _ _ M) as [-> R]. split; [exact E|]. split; [exact HA|]. cbn [p_own_linop].
  destruct H as [->|[m [Em Hm]]]; [now left|]. destruct D as [D|D]; [|congruence].
  rewrite Em. cbn [bind p_rev p_out p_rv]. rewrite D in *. rewrite R in Hm. apply cross_matrix_entry in Hm as [[SR SC] V]. rewrite size1 in SR.
  right. unfold mat_mul. rewrite SR, Nat.eqb_refl. eexists. split; [reflexivity|]. apply cross_matrix_entry. cbn [nrows ncols entry].
  rewrite size1. split; [split; auto|]. intros i o r Hi Ho Hr. apply valid1_inv in Hr as [s [-> Hs]]. unfold lin_value. cbn [nth].
  rewrite ravel1. apply fsum_seq_ext. intros k Hk. f_equal. rewrite <- (V i o [k] Hi Ho) by now apply valid1. now rewrite ravel1.
Qed.
(** Without [reverse] the operator is multiplied from the wrong side. *)
Lemma plinop_own A p q x b m : mk_plinop A p = Ok q -> nshape x = b ++ p_in p -> p_own_linop p x = Ok m ->
  p_linop q x = mat_mul A m.
Proof.
  intros M E Em. destruct (plinop_is _ _ _ M) as [-> _]. unfold p_linop, p_public. cbn [p_in].
  rewrite (batch_shape_ok _ _ _ E). cbn [bind p_own_linop]. rewrite Em. cbn [bind]. unfold mat_mul. now destruct (_ =? _).
Qed.

(** ** Stacks *)
Lemma pstack_is sh l p : mk_pstack sh l = Ok p -> p = PStack sh l /\ l <> [] /\
  Forall (fun c => p_in c = p_in p /\ p_out c = [] /\ p_rv c = p_rv p /\ p_rev c = p_rev p) l.
Proof.
  unfold mk_pstack. destruct l as [|q l]; [discriminate|].
  destruct (forallb (fun p => shape_eqb (p_in p) (p_in q)) (q :: l)) eqn:E1; [|discriminate].
  destruct (forallb (fun p => shape_eqb (p_out p) []) (q :: l)) eqn:E2; [|discriminate].
  destruct (forallb (fun p => shape_eqb (p_rv p) (p_rv q)) (q :: l)) eqn:E3; [|discriminate].
  destruct (forallb (fun p => Bool.eqb (p_rev p) (p_rev q)) (q :: l)) eqn:E4; [|discriminate]. cbn [negb]. intros [= <-].
  repeat split; [discriminate|]. rewrite forallb_forall in E1, E2, E3, E4. apply Forall_forall. intros c Hc.
  specialize (E1 c Hc). specialize (E2 c Hc). specialize (E3 c Hc). specialize (E4 c Hc). cbn [p_in p_rv p_rev].
  destruct (shape_eqb_spec (p_in c) (p_in q)), (shape_eqb_spec (p_out c) []), (shape_eqb_spec (p_rv c) (p_rv q)); try discriminate.
  apply eqb_prop in E4. auto.
Qed.
Lemma stack_array_ok sh b rv rev (evals : list (nd F)) (g : nat -> index -> index -> F) : evals <> [] -> length evals = size sh ->
  (forall n d, n < length evals -> cross_array (nth n evals d) rev b [] rv (fun i _ r => g n i r)) ->
  exists a, stack_array sh rv rev evals = Ok a /\ cross_array a rev b sh rv (fun i o r => g (ravel sh o) i r).
Proof.
  intros N L H. destruct rev.
  - destruct (fill_last_ok sh (rv ++ b) evals (fun n ri => g n (skipn (length rv) ri) (firstn (length rv) ri)) N L) as [a [Ea [Sa Va]]].
    { intros n d Hn. destruct (H n d Hn) as [S V]. rewrite app_nil_r in S. split; [exact S|]. intros ri Hri.
      apply valid_index_app_inv in Hri as [r [i [-> [Hr Hi]]]]. pose proof (valid_index_length _ _ Hr) as Lr.
      rewrite skipn_app_l, firstn_app_l by assumption. rewrite <- (V i [] r Hi (Forall2_nil _) Hr). now rewrite app_nil_r. }
    exists a. unfold stack_array. destruct evals as [|e r]; [congruence|]. split; [exact Ea|]. split; [now rewrite Sa, app_assoc|].
    intros i o s Hi Ho Hs. rewrite app_assoc, Va by (try apply valid_index_app; assumption).
    apply valid_index_length in Hs. now rewrite skipn_app_l, firstn_app_l.
  - destruct evals as [|e r]; [congruence|]. cbn [stack_array].
    assert (SE : forall c, In c (e :: r) -> nshape c = b ++ rv).
    { intros c Hc. destruct (In_nth _ _ e Hc) as [n [Hn <-]]. apply (H n e Hn). }
    rewrite (SE e (or_introl eq_refl)), app_length. replace (length b + length rv - length rv) with (length b) by lia.
    rewrite firstn_app_l by reflexivity.
    replace (forallb (fun a => shape_eqb (nshape a) (b ++ rv)) (e :: r)) with true.
    2: { symmetry. apply forallb_forall. intros c Hc. rewrite (SE c Hc). apply shape_eqb_refl. }
    destruct (to_front (Nd (sh ++ b ++ rv) (fun l => nat_ (nth (ravel sh (firstn (length sh) l)) (e :: r) e) (skipn (length sh) l))) sh b rv eq_refl) as [t [-> [St Vt]]].
    exists t. split; [reflexivity|]. split; [exact St|]. intros i o s Hi Ho Hs.
    rewrite Vt by (eapply valid_index_length; eassumption). cbn [nat_].
    pose proof (valid_index_length _ _ Ho) as Lo. rewrite skipn_app_l, firstn_app_l by assumption.
    assert (Hn : ravel sh o < length (e :: r)) by (rewrite L; now apply ravel_lt).
    destruct (H _ e Hn) as [_ V]. apply (V i [] s Hi); [constructor|assumption].
Qed.
Lemma pstack_shows sh l p x b (g : nat -> index -> index -> F) : mk_pstack sh l = Ok p -> length l = size sh ->
  (forall n c, nth_error l n = Some c -> pv_shows c x b (fun i _ r => g n i r)) ->
  pv_shows p x b (fun i o r => g (ravel sh o) i r) /\
  exists m, p_own_linop p x = Ok m /\ cross_matrix m (p_rev p) b (p_out p) (p_rv p) (fun i o r => g (ravel sh o) i r).
Proof.
  intros M L H. destruct (pstack_is _ _ _ M) as [-> [N HS]]. rewrite Forall_forall in HS.
  assert (E : nshape x = b ++ p_in (PStack sh l)).
  { destruct l as [|c l]; [congruence|]. apply (H 0 c eq_refl). }
  assert (O : exists m, p_own_linop (PStack sh l) x = Ok m /\
     cross_matrix m (p_rev (PStack sh l)) b sh (p_rv (PStack sh l)) (fun i o r => g (ravel sh o) i r)).
  { set (rv := p_rv (PStack sh l)). set (rev := p_rev (PStack sh l)).
    change (p_own_linop (PStack sh l) x) with
      (bind (mapR (fun q => p_linop q x) l) (fun ms => block_linop (if rev then [ms] else map (fun m => [m]) ms))).
    destruct (mapR_nth (fun q => p_linop q x) (fun n m => cross_matrix m rev b [] rv (fun i _ r => g n i r)) l) as [ms [-> [Lm Hm]]].
    { intros n c Hc. destruct (linop_view c x b _ (H n c Hc)) as [m [Em Hm]].
      destruct (HS c (nth_error_In _ _ Hc)) as [_ [Eo [Er Ev]]]. exists m. split; [exact Em|]. rewrite Eo, Er, Ev in Hm. exact Hm. }
    cbn [bind]. assert (Nm : ms <> []) by (destruct ms; [destruct l; [congruence|discriminate]|discriminate]).
    destruct rev.
    - assert (FM : Forall (fun m => nrows m = size rv /\ ncols m = size b) ms).
      { apply Forall_forall. intros m Hin. destruct (In_nth _ _ m Hin) as [n [Hn <-]]. rewrite Lm in Hn.
        pose proof (proj1 (cross_matrix_entry _ _ _ _ _ _) (Hm n m Hn)) as [S _]. exact S. }
      destruct (block_row ms (size rv) (size b) Nm FM) as [m [-> [MR [MC V]]]]. exists m. split; [reflexivity|].
      apply cross_matrix_entry. split; [split; [exact MR|now rewrite MC, size_app, Lm, L]|]. intros i o r Hi Ho Hr.
      rewrite (ravel_app sh) by assumption. assert (Hn : ravel sh o < length l) by (rewrite L; now apply ravel_lt).
      rewrite (V (ravel sh o) (ravel rv r) (ravel b i) (zero_mat 0 0)) by (rewrite ?Lm; auto; now apply ravel_lt).
      pose proof (proj1 (cross_matrix_entry _ _ _ _ _ _) (Hm (ravel sh o) (zero_mat 0 0) Hn)) as [_ W]. apply (W i [] r Hi); [constructor|assumption].
    - assert (FM : Forall (fun m => nrows m = size b /\ ncols m = size rv) ms).
      { apply Forall_forall. intros m Hin. destruct (In_nth _ _ m Hin) as [n [Hn <-]]. rewrite Lm in Hn.
        pose proof (proj1 (cross_matrix_entry _ _ _ _ _ _) (Hm n m Hn)) as [S _]. exact S. }
      destruct (block_col ms (size b) (size rv) Nm FM) as [m [-> [MR [MC V]]]]. exists m. split; [reflexivity|].
      apply cross_matrix_entry. split; [split; [now rewrite MR, size_app, Lm, L|exact MC]|]. intros i o r Hi Ho Hr.
      rewrite (ravel_app sh) by assumption. assert (Hn : ravel sh o < length l) by (rewrite L; now apply ravel_lt).
      rewrite (V (ravel sh o) (ravel b i) (ravel rv r) (zero_mat 0 0)) by (rewrite ?Lm; auto; now apply ravel_lt).
      pose proof (proj1 (cross_matrix_entry _ _ _ _ _ _) (Hm (ravel sh o) (zero_mat 0 0) Hn)) as [_ W]. apply (W i [] r Hi); [constructor|assumption]. }
  split; [|exact O]. split; [exact E|]. split; [|right; exact O].
  apply (call_by (PStack sh l) x b _ _ E (call_unfold_at (PStack sh l) x b E)).
  destruct (mapR_nth (fun q => p_call q x) (fun n a => cross_array a (p_rev (PStack sh l)) b [] (p_rv (PStack sh l)) (fun i _ r => g n i r)) l) as [as_ [-> [La Ha]]].
  { intros n c Hc. destruct (H n c Hc) as [_ [[a [Ea Sa]] _]].
    destruct (HS c (nth_error_In _ _ Hc)) as [_ [Eo [Er Ev]]]. exists a. split; [exact Ea|]. rewrite Eo, Er, Ev in Sa. exact Sa. }
  cbn [bind]. apply stack_array_ok.
  - destruct as_; [destruct l; [congruence|discriminate]|discriminate].
  - congruence.
  - rewrite La. exact Ha.
Qed.

(** ** Evaluations *)
Notation kernel := (point F -> point F -> index -> index -> F).
(** The covariance function [k] has the values [K]. *)
Definition kern_call (k : kfun F) (K : kernel) : Prop :=
  forall (x0 : nd F) (x1 : option (nd F)) (b0 b1 b : shape), points (k_in k) x0 x1 b0 b1 -> broadcast_shapes b0 b1 = Ok b ->
  exists a, k_call k x0 x1 = Ok a /\ cov_array a b (k_out0 k) (k_out1 k) (leaf_value K x0 x1 b0 b1).
Definition kern_linop (k : kfun F) (K : kernel) (b0 b1 : shape) : Prop :=
  forall (x0 : nd F) (x1 : option (nd F)), points (k_in k) x0 x1 b0 b1 ->
  exists m, k_linop k x0 x1 = Ok m /\ cov_matrix m b0 b1 (k_out0 k) (k_out1 k) (fun i j o q => K (pt x0 i) (pt (second x0 x1) j) o q).

Lemma ev_is dirac dom cod (X : nd F) e : mk_evalf dirac dom cod X = Ok e ->
  e = mkevalf dirac dom cod X /\ nshape X = ev_batch e ++ dom.
Proof.
  unfold mk_evalf. destruct (shape_eqb_spec (nshape X) (firstn (length (nshape X) - length dom) (nshape X) ++ dom)) as [E|]; [|discriminate].
  intros [= <-]. split; [reflexivity|]. exact E.
Qed.
(** Index of a point of the functional and of its output in its output index. *)
Definition ev_point (e : evalf F) (r : index) : index := if ev_dirac e then firstn (length (ev_batch e)) r else skipn (length (ev_cod e)) r.
Definition ev_output (e : evalf F) (r : index) : index := if ev_dirac e then skipn (length (ev_batch e)) r else firstn (length (ev_cod e)) r.
Lemma ev_out_inv e r : valid_index (ev_out e) r ->
  exists s q, valid_index (ev_batch e) s /\ valid_index (ev_cod e) q /\ ev_point e r = s /\ ev_output e r = q /\
    r = if ev_dirac e then s ++ q else q ++ s.
Proof.
  unfold ev_out, ev_point, ev_output. intros H. destruct (ev_dirac e); apply valid_index_app_inv in H as [u [v [-> [Hu Hv]]]];
    [exists u, v|exists v, u]; pose proof (valid_index_length _ _ Hu); rewrite firstn_app_l, skipn_app_l by assumption; auto.
Qed.
Definition eval1_value (K : kernel) (e : evalf F) x : value := fun i o r => K (pt x i) (pt (ev_X e) (ev_point e r)) o (ev_output e r).
Definition eval0_value (K : kernel) (e : evalf F) x : value := fun i o r => K (pt (ev_X e) (ev_point e r)) (pt x i) (ev_output e r) o.
Definition eval0_array_value (K : kernel) (e : evalf F) x : value := fun i o r => K (pt x i) (pt (ev_X e) (ev_point e r)) (ev_output e r) o.

Lemma perm4_0213 (s : list nat) : s = [0; 1; 2; 3] -> Permutation [0; 2; 1; 3] s.
Proof. intros ->. apply perm_skip, perm_swap. Qed.
Lemma perm4_2013 : Permutation [2; 0; 1; 3] [0; 1; 2; 3].
Proof. transitivity [0; 2; 1; 3]; [apply perm_swap|apply perm_skip, perm_swap]. Qed.
Lemma perm4_0231 : Permutation [0; 2; 3; 1] [0; 1; 2; 3].
Proof. apply perm_skip. transitivity [2; 1; 3]; [apply perm_skip, perm_swap|apply perm_swap]. Qed.
(** [transpose_blocks] with four blocks. *)
Lemma transpose4 (a : nd F) s0 s1 s2 s3 np perm : nshape a = s0 ++ s1 ++ s2 ++ s3 -> Permutation np [0; 1; 2; 3] ->
  perm = block_perm [s0; s1; s2; s3] np ->
  exists t, np_transpose a perm = Ok t /\ nshape t = concat (map (fun i => nth i [s0; s1; s2; s3] []) np) /\
    forall i0 i1 i2 i3, length i0 = length s0 -> length i1 = length s1 -> length i2 = length s2 -> length i3 = length s3 ->
      nat_ t (concat (map (fun i => nth i [i0; i1; i2; i3] []) np)) = nat_ a (i0 ++ i1 ++ i2 ++ i3).
Proof.
  intros E P ->. destruct (transpose_blocks a [s0; s1; s2; s3] np) as [t [Et [St Vt]]].
  { cbn. now rewrite app_nil_r. } { exact P. }
  exists t. split; [exact Et|]. split; [exact St|]. intros i0 i1 i2 i3 H0 H1 H2 H3. rewrite Vt by (repeat constructor; auto).
  cbn. now rewrite app_nil_r.
Qed.
Lemma block_perm4 (s0 s1 s2 s3 : shape) np : block_perm [s0; s1; s2; s3] np =
  concat (map (fun i => nth i [seq 0 (length s0); seq (length s0) (length s1); seq (length s0 + length s1) (length s2);
                               seq (length s0 + length s1 + length s2) (length s3)] []) np).
Proof. reflexivity. Qed.

Lemma eval1_array k K e x b : kern_call k K -> mk_evalf (ev_dirac e) (k_in k) (k_out1 k) (ev_X e) = Ok e ->
  nshape x = b ++ k_in k ->
  exists a, p_call (PEval k e false) x = Ok a /\ cross_array a false b (k_out0 k) (ev_out e) (eval1_value K e x).
Proof.
  intros HK HE E. destruct (ev_is _ _ _ _ _ HE) as [Ee SX].
  assert (Ed : ev_dom e = k_in k) by (rewrite Ee; reflexivity). assert (Ec : ev_cod e = k_out1 k) by (rewrite Ee; reflexivity). clear Ee.
  apply (call_by (PEval k e false) x b _ _ E (call_unfold_at (PEval k e false) x b E)). cbn [p_out p_rev p_rv].
  set (Xb := ev_batch e) in *. unfold eval_array. fold Xb. rewrite Ec.
  pose proof (np_expand_shape x b (length Xb) (k_in k) E) as SE. rewrite SE, SX, <- app_assoc, !shape_eqb_refl. cbn [andb].
  destruct (HK (np_expand x (length b) (length Xb)) (Some (ev_X e)) (b ++ repeat 1 (length Xb)) Xb (b ++ Xb)) as [a [-> [Sa Va]]].
  { split; [exact SE|exact SX]. } { apply broadcast_expand_l. }
  cbn [bind]. rewrite <- app_assoc in Sa. rewrite Sa, shape_eqb_refl.
  assert (VV : forall i s o q, valid_index b i -> valid_index Xb s -> valid_index (k_out0 k) o -> valid_index (k_out1 k) q ->
    nat_ a (i ++ s ++ o ++ q) = K (pt x i) (pt (ev_X e) s) o q).
  { intros i s o q Hi Hs Ho Hq. rewrite app_assoc, Va by (try apply valid_index_app; assumption). unfold leaf_value. cbn [second].
    rewrite operand_index_ones by (auto; now apply valid_index_length). rewrite (operand_index_last b) by (auto; now apply valid_index_length).
    now rewrite pt_expand by now apply valid_index_length. }
  destruct (ev_dirac e) eqn:D.
  - destruct (transpose4 a b Xb (k_out0 k) (k_out1 k) [0; 2; 1; 3] _ Sa (perm4_0213 _ eq_refl) eq_refl) as [t [Et [St Vt]]].
    rewrite block_perm4 in Et. cbn [map concat nth] in Et, St, Vt. rewrite app_nil_r in Et, St.
    rewrite Et. exists t. split; [reflexivity|]. unfold ev_out. rewrite D, Ec. fold Xb. split; [exact St|]. intros i o r Hi Ho Hr.
    destruct (ev_out_inv e r) as [s [q [Hs [Hq [Es [Eq Er]]]]]]; [unfold ev_out; now rewrite D, Ec|]. rewrite D in Er. subst r.
    rewrite Ec in Hq. fold Xb in Hs. unfold eval1_value. rewrite Es, Eq, <- (VV i s o q Hi Hs Ho Hq).
    rewrite <- Vt by now apply valid_index_length. now rewrite app_nil_r.
  - destruct (transpose4 a b Xb (k_out0 k) (k_out1 k) [0; 2; 3; 1] _ Sa perm4_0231 eq_refl) as [t [Et [St Vt]]].
    rewrite block_perm4 in Et. cbn [map concat nth] in Et, St, Vt. rewrite app_nil_r in Et, St.
    rewrite Et. exists t. split; [reflexivity|]. unfold ev_out. rewrite D, Ec. fold Xb. split; [exact St|]. intros i o r Hi Ho Hr.
    destruct (ev_out_inv e r) as [s [q [Hs [Hq [Es [Eq Er]]]]]]; [unfold ev_out; now rewrite D, Ec|]. rewrite D in Er. subst r.
    rewrite Ec in Hq. fold Xb in Hs. unfold eval1_value. rewrite Es, Eq, <- (VV i s o q Hi Hs Ho Hq).
    rewrite <- Vt by now apply valid_index_length. now rewrite app_nil_r.
Qed.
Lemma eval0_array k K e x b : kern_call k K -> mk_evalf (ev_dirac e) (k_in k) (k_out0 k) (ev_X e) = Ok e ->
  nshape x = b ++ k_in k ->
  exists a, p_call (PEval k e true) x = Ok a /\ cross_array a true b (k_out1 k) (ev_out e) (eval0_array_value K e x).
Proof.
  intros HK HE E. destruct (ev_is _ _ _ _ _ HE) as [Ee SX].
  assert (Ed : ev_dom e = k_in k) by (rewrite Ee; reflexivity). assert (Ec : ev_cod e = k_out0 k) by (rewrite Ee; reflexivity). clear Ee.
  assert (EO : p_out (PEval k e true) = k_out1 k).
  { cbn [p_out]. rewrite Ec, skipn_app_l by reflexivity. now destruct (ev_dirac e). }
  rewrite <- EO. apply (call_by (PEval k e true) x b _ _ E (call_unfold_at (PEval k e true) x b E)). rewrite EO. cbn [p_rev p_rv].
  set (Xb := ev_batch e) in *. unfold eval_array. fold Xb. rewrite Ec.
  pose proof (np_expand_shape (ev_X e) Xb (length b) (k_in k) SX) as SE. rewrite SE, <- app_assoc, shape_eqb_refl.
  destruct (HK x (Some (np_expand (ev_X e) (length Xb) (length b))) b (Xb ++ repeat 1 (length b)) (Xb ++ b)) as [a [-> [Sa Va]]].
  { split; [exact E|exact SE]. } { apply broadcast_expand_r. }
  cbn [bind]. rewrite <- app_assoc in Sa. rewrite Sa, shape_eqb_refl.
  assert (VV : forall i s o q, valid_index b i -> valid_index Xb s -> valid_index (k_out1 k) o -> valid_index (k_out0 k) q ->
    nat_ a (s ++ i ++ q ++ o) = K (pt x i) (pt (ev_X e) s) q o).
  { intros i s o q Hi Hs Ho Hq. rewrite app_assoc, Va by (try apply valid_index_app; assumption). unfold leaf_value. cbn [second].
    rewrite operand_index_ones by (auto; now apply valid_index_length). rewrite (operand_index_last Xb) by (auto; now apply valid_index_length).
    now rewrite pt_expand by now apply valid_index_length. }
  destruct (ev_dirac e) eqn:D.
  - destruct (transpose4 a Xb b (k_out0 k) (k_out1 k) [0; 2; 1; 3] _ Sa (perm4_0213 _ eq_refl) eq_refl) as [t [Et [St Vt]]].
    rewrite block_perm4 in Et. cbn [map concat nth] in Et, St, Vt. rewrite app_nil_r in Et, St. rewrite <- app_assoc.
    rewrite Et. exists t. split; [reflexivity|]. unfold ev_out. rewrite D, Ec. fold Xb. split; [now rewrite St, <- app_assoc|]. intros i o r Hi Ho Hr.
    destruct (ev_out_inv e r) as [s [q [Hs [Hq [Es [Eq Er]]]]]]; [unfold ev_out; now rewrite D, Ec|]. rewrite D in Er. subst r.
    rewrite Ec in Hq. fold Xb in Hs. unfold eval0_array_value. rewrite Es, Eq, <- (VV i s o q Hi Hs Ho Hq).
    rewrite <- Vt by now apply valid_index_length. now rewrite app_nil_r, <- app_assoc.
  - destruct (transpose4 a Xb b (k_out0 k) (k_out1 k) [2; 0; 1; 3] _ Sa perm4_2013 eq_refl) as [t [Et [St Vt]]].
    rewrite block_perm4 in Et. cbn [map concat nth] in Et, St, Vt. rewrite app_nil_r in Et, St. rewrite <- app_assoc.
    rewrite Et. exists t. split; [reflexivity|]. unfold ev_out. rewrite D, Ec. fold Xb. split; [now rewrite St, <- app_assoc|]. intros i o r Hi Ho Hr.
    destruct (ev_out_inv e r) as [s [q [Hs [Hq [Es [Eq Er]]]]]]; [unfold ev_out; now rewrite D, Ec|]. rewrite D in Er. subst r.
    rewrite Ec in Hq. fold Xb in Hs. unfold eval0_array_value. rewrite Es, Eq, <- (VV i s o q Hi Hs Ho Hq).
    rewrite <- Vt by now apply valid_index_length. now rewrite app_nil_r, <- app_assoc.
Qed.
(** Operators: output-major, as [_EvaluationFunctional] promises. *)
Definition plain (e : evalf F) : Prop := ev_dirac e = false \/ ev_cod e = [] \/ ev_batch e = [].
Lemma plain_out e r : plain e -> valid_index (ev_out e) r ->
  ev_out e = ev_cod e ++ ev_batch e /\ exists s q, valid_index (ev_batch e) s /\ valid_index (ev_cod e) q /\ ev_point e r = s /\ ev_output e r = q /\ r = q ++ s.
Proof.
  intros P H. destruct (ev_out_inv e r H) as [s [q [Hs [Hq [Es [Eq Er]]]]]]. unfold ev_out in *. destruct P as [P|[P|P]].
  - rewrite P in *. split; [reflexivity|]. now exists s, q.
  - rewrite P in *. assert (Q : q = []) by now inversion Hq. rewrite Q in *. rewrite app_nil_r in *. split; [now destruct (ev_dirac e)|].
    exists s, []. repeat split; auto. transitivity (if ev_dirac e then s else [] ++ s); [exact Er|]. now destruct (ev_dirac e).
  - rewrite P in *. assert (Q : s = []) by now inversion Hs. rewrite Q in *. rewrite app_nil_r in *. split; [now destruct (ev_dirac e)|].
    exists [], q. repeat split; auto. rewrite app_nil_r. transitivity (if ev_dirac e then [] ++ q else q); [exact Er|]. now destruct (ev_dirac e).
Qed.
Lemma plain_size e : plain e -> size (ev_out e) = size (ev_cod e ++ ev_batch e).
Proof. intros _. unfold ev_out. destruct (ev_dirac e); rewrite !size_app; lia. Qed.
Lemma eval1_linop k K e x b : kern_linop k K b (ev_batch e) -> mk_evalf (ev_dirac e) (k_in k) (k_out1 k) (ev_X e) = Ok e -> plain e ->
  nshape x = b ++ k_in k ->
  exists m, p_own_linop (PEval k e false) x = Ok m /\ cross_matrix m false b (k_out0 k) (ev_out e) (eval1_value K e x).
Proof.
  intros HK HE P E. destruct (ev_is _ _ _ _ _ HE) as [Ee SX].
  assert (Ec : ev_cod e = k_out1 k) by (rewrite Ee; reflexivity). clear Ee.
  destruct (HK x (Some (ev_X e)) (conj E SX)) as [m [Em [R [C V]]]]. cbn [p_own_linop]. rewrite Em. exists m. split; [reflexivity|].
  apply cross_matrix_entry. rewrite (plain_size e P), Ec. split; [split; assumption|]. intros i o r Hi Ho Hr.
  destruct (plain_out e r P Hr) as [-> [s [q [Hs [Hq [Es [Eq ->]]]]]]]. unfold eval1_value. rewrite Es, Eq, Ec. rewrite Ec in Hq. now rewrite V.
Qed.
Lemma eval0_linop k K e x b : kern_linop k K (ev_batch e) b -> mk_evalf (ev_dirac e) (k_in k) (k_out0 k) (ev_X e) = Ok e -> plain e ->
  nshape x = b ++ k_in k ->
  exists m, p_own_linop (PEval k e true) x = Ok m /\ cross_matrix m true b (k_out1 k) (ev_out e) (eval0_value K e x).
Proof.
  intros HK HE P E. destruct (ev_is _ _ _ _ _ HE) as [Ee SX].
  assert (Ec : ev_cod e = k_out0 k) by (rewrite Ee; reflexivity). clear Ee.
  destruct (HK (ev_X e) (Some x) (conj SX E)) as [m [Em [R [C V]]]]. cbn [p_own_linop]. rewrite Em. exists m. split; [reflexivity|].
  apply cross_matrix_entry. rewrite (plain_size e P), Ec. split; [split; assumption|]. intros i o r Hi Ho Hr.
  destruct (plain_out e r P Hr) as [-> [s [q [Hs [Hq [Es [Eq ->]]]]]]]. unfold eval0_value. rewrite Es, Eq, Ec. rewrite Ec in Hq. now rewrite V.
Qed.

(** ** Parametric cross-covariances *)
Lemma param_shows c insh n basis rev x b m0 s1 h : nshape x = b ++ insh -> shows c [m0] s1 h -> size s1 = n ->
  (rev = false -> s1 = [m0]) ->
  exists a, p_call (PParam c insh n basis rev) x = Ok a /\
    cross_array a rev b [] [m0] (fun i _ r => fsum (map (fun k => fmul (h r (unravel s1 k)) (basis (pt x i) k)) (seq 0 n))).
Proof.
  intros E [E0 [E1 [_ [_ [C [EC [CR [CC CV]]]]]]]] Sn HR. rewrite size1 in CR.
  assert (ER : p_rv (PParam c insh n basis rev) = [m0]).
  { cbn [p_rv]. destruct rev; [exact E0|]. rewrite E1. now apply HR. }
  set (g := fun (i o r : index) => fsum (map (fun k => fmul (h r (unravel s1 k)) (basis (pt x i) k)) (seq 0 n))).
  enough (G : exists a, p_call (PParam c insh n basis rev) x = Ok a /\
    cross_array a (p_rev (PParam c insh n basis rev)) b (p_out (PParam c insh n basis rev)) (p_rv (PParam c insh n basis rev)) g)
    by (rewrite ER in G; exact G).
  apply (call_by (PParam c insh n basis rev) x b _ _ E (call_unfold_at (PParam c insh n basis rev) x b E)). rewrite ER. cbn [p_rev p_out].
  unfold param_array. rewrite EC. cbn [bind].
  set (phi := Nd (b ++ [n]) (fun l => basis (pt x (firstn (length b) l)) (nth (length b) l 0))).
  destruct (lin_axis_ok C phi b n [] eq_refl) as [a [-> [Sa Va]]]; [congruence|]. cbn [bind].
  assert (VA : forall i r, valid_index b i -> r < m0 ->
     nat_ a (i ++ [r]) = fsum (map (fun k => fmul (h [r] (unravel s1 k)) (basis (pt x i) k)) (seq 0 n))).
  { intros i r Hi Hr. rewrite Va by (auto; now apply valid_index_length). rewrite CC, Sn. apply fsum_seq_ext. intros k Hk. f_equal.
    - assert (Hk' : valid_index s1 (unravel s1 k)) by (apply unravel_valid; lia).
      rewrite <- (CV [r] (unravel s1 k) (valid1 _ _ Hr) Hk'). rewrite ravel1. f_equal. symmetry. apply ravel_unravel. lia.
    - unfold phi. cbn [nat_]. apply valid_index_length in Hi. rewrite firstn_app_l by assumption. rewrite app_nth2, Hi, Nat.sub_diag by lia. reflexivity. }
  destruct rev.
  - rewrite Sa, app_length, CR. cbn [length]. replace (length b + 1 - 1) with (length b) by lia.
    destruct (to_front a b [m0] []) as [t [Et [St Vt]]]. { now rewrite Sa, CR. }
    cbn [length seq] in Et. rewrite Et. exists t. split; [reflexivity|]. split; [exact St|]. intros i o r Hi Ho Hr.
    inversion Ho; subst o. apply valid1_inv in Hr as [s [-> Hs]]. rewrite Vt by (auto; now apply valid_index_length). cbn [app]. now apply VA.
  - exists a. split; [reflexivity|]. split; [now rewrite Sa, CR|]. intros i o r Hi Ho Hr.
    inversion Ho; subst o. apply valid1_inv in Hr as [s [-> Hs]]. cbn [app]. now apply VA.
Qed.

(** ** Functionals *)
Lemma functl_eval e p x b g : pv_shows p x b g -> ev_X e = x -> plain e -> ev_batch e = b -> ev_cod e = p_out p ->
  exists c, f_pv (FEval e) p = Ok c /\ functl_cov c (p_rev p) (ev_out e) (p_rv p) (fun s r => g (ev_point e s) (ev_output e s) r).
Proof.
  intros H EX P EB EC. destruct (linop_view p x b g H) as [m [Em Hm]]. cbn [f_pv]. unfold cov_shapes, functl_cov. rewrite EX.
  apply cross_matrix_entry in Hm as [S V]. destruct (p_rev p); rewrite Em; cbn [bind]; apply linop_cov_shows; unfold matrix_shows;
    rewrite (plain_size e P), EB, EC; destruct S as [S1 S2]; (split; [exact S1|]); (split; [exact S2|]).
  - intros r s Hr Hs. destruct (plain_out e s P Hs) as [-> [i [o [Hi [Ho [Es [Eq ->]]]]]]]. rewrite Es, Eq, EB, EC. apply V; congruence.
  - intros s r Hs Hr. destruct (plain_out e s P Hs) as [-> [i [o [Hi [Ho [Es [Eq ->]]]]]]]. rewrite Es, Eq, EB, EC. apply V; congruence.
Qed.
Definition lf_shows (L : lfun F) p (h : index -> index -> F) : Prop :=
  exists c, lf_pv L p = Ok c /\ functl_cov c (p_rev p) (lf_out L) (p_rv p) h.
Lemma lf_leaf L insh outsh rv rev v : lf_shows L (PLeaf insh outsh rv rev v) (fun s r => lf_act L (fun y o => v y o r) s).
Proof.
  unfold lf_shows, functl_cov. cbn [lf_pv p_rev p_rv]. destruct rev.
  - destruct (array_cov_shows (Nd (rv ++ lf_out L) (fun l => lf_act L (fun y o => v y o (firstn (length rv) l)) (skipn (length rv) l))) rv (lf_out L) eq_refl) as [c [-> Hc]].
    exists c. split; [reflexivity|]. eapply shows_ext; [exact Hc|]. intros i j Hi Hj. cbn [nat_].
    apply valid_index_length in Hi. rewrite firstn_app_l, skipn_app_l by assumption. reflexivity.
  - destruct (array_cov_shows (Nd (lf_out L ++ rv) (fun l => lf_act L (fun y o => v y o (skipn (length (lf_out L)) l)) (firstn (length (lf_out L)) l))) (lf_out L) rv eq_refl) as [c [-> Hc]].
    exists c. split; [reflexivity|]. eapply shows_ext; [exact Hc|]. intros i j Hi Hj. cbn [nat_].
    apply valid_index_length in Hi. rewrite firstn_app_l, skipn_app_l by assumption. reflexivity.
Qed.
Lemma lf_scaled L c p h : lf_shows L p h -> lf_shows L (PScaled c p) (fun s r => fmul c (h s r)).
Proof.
  intros [v [Ev Hv]]. unfold lf_shows, functl_cov in *. cbn [lf_pv p_rev p_rv]. rewrite Ev. cbn [bind].
  destruct (p_rev p); apply (crmul_shows c) in Hv as [w [-> Hw]]; exists w; split; auto.
Qed.
Lemma reduce_cadd s0 s1 (hs : list (index -> index -> F)) (cs : list (covariance F)) c0 h0 :
  shows c0 s0 s1 h0 -> Forall2 (fun c h => shows c s0 s1 h) cs hs ->
  exists r, reduceM cadd c0 cs = Ok r /\ shows r s0 s1 (fun i j => fadd (h0 i j) (fsum (map (fun h => h i j) hs))).
Proof.
  intros H0 H. revert c0 h0 H0. induction H as [|c h cs hs Hc H IH]; intros c0 h0 H0; cbn [reduceM].
  - exists c0. split; [reflexivity|]. eapply shows_ext; [exact H0|]. intros i j _ _. unfold fsum. cbn [map fold_right]. ring.
  - destruct (cadd_shows LF c0 c s0 s1 h0 h H0 Hc) as [d [-> Hd]]. cbn [bind]. destruct (IH d _ Hd) as [r [-> Hr]].
    exists r. split; [reflexivity|]. eapply shows_ext; [exact Hr|]. intros i j _ _. unfold fsum. cbn [map fold_right]. ring.
Qed.
Lemma lf_sum L l p hs : mk_sum l = Ok p -> Forall2 (lf_shows L) l hs ->
  lf_shows L p (fun s r => fsum (map (fun h => h s r) hs)).
Proof.
  intros M H. destruct (mk_sum_is l p M) as [q [l' [El [-> HS]]]]. unfold lf_shows, functl_cov.
  assert (A : exists cs, mapR (lf_pv L) l = Ok cs /\ Forall2 (fun c h => functl_cov c (p_rev q) (lf_out L) (p_rv q) h) cs hs).
  { clear M El. revert HS. induction H as [|c h l hs [a [Ea Ha]] H IH]; intros HS; cbn [mapR]; [eauto|].
    inversion HS as [|? ? [_ [_ [Er Ev]]] HS']; subst. rewrite Ea. cbn [bind]. destruct (IH HS') as [cs [-> Hcs]]. cbn [bind].
    eexists. split; [reflexivity|]. constructor; [|exact Hcs]. now rewrite <- Er, <- Ev. }
  change (lf_pv L (PSum l)) with (bind (mapR (lf_pv L) l) (reduce cadd)). destruct A as [cs [-> HA]]. cbn [bind].
  subst l. cbn [p_rev p_rv]. inversion H as [|? h ? hs' Hq H']; subst. inversion HA as [|c ? cs' ? Hc HA']; subst. cbn [reduce].
  unfold functl_cov in *. destruct (p_rev q).
  - destruct (reduce_cadd (p_rv q) (lf_out L) (map (fun h r s => h s r) hs') cs' c _ Hc) as [r [-> Hr]].
    { clear -HA'. induction HA'; cbn; constructor; auto. }
    exists r. split; [reflexivity|]. eapply shows_ext; [exact Hr|]. intros i j _ _. unfold fsum. cbn [map fold_right]. f_equal. now rewrite map_map.
  - destruct (reduce_cadd (lf_out L) (p_rv q) hs' cs' c _ Hc HA') as [r [-> Hr]].
    exists r. split; [reflexivity|]. eapply shows_ext; [exact Hr|]. reflexivity.
Qed.
Lemma cov_lin_first A (c : covariance F) n s1 h : shows c [n] s1 h -> n = ncols A ->
  exists d, cov_lin_axis A c (length (cshape0 c) - 1) = Ok d /\
    shows d [nrows A] s1 (fun i j => fsum (map (fun k => fmul (entry A (nth 0 i 0) k) (h [k] j)) (seq 0 (ncols A)))).
Proof.
  intros [E0 [E1 [[a [Ea [Sa Va]]] _]]] En. unfold cov_lin_axis. rewrite Ea, E0. cbn [bind length Nat.sub].
  destruct (lin_axis_ok A a [] n s1 Sa En) as [r [Er [Sr Vr]]]. cbn [length] in Er. rewrite Er. cbn [bind]. rewrite Sr. cbn [app firstn skipn].
  destruct (array_cov_shows r [nrows A] s1 Sr) as [d [-> Hd]]. exists d. split; [reflexivity|]. eapply shows_ext; [exact Hd|].
  intros i j Hi Hj. apply valid1_inv in Hi as [m [-> Hm]]. cbn [app nth]. specialize (Vr [] m j eq_refl). cbn [app] in Vr.
  rewrite Vr by now apply valid_index_length. apply fsum_seq_ext. intros k Hk. f_equal. apply (Va [k] j); auto. apply valid1. lia.
Qed.
Lemma cov_lin_last A (c : covariance F) s0 n h : shows c s0 [n] h -> n = ncols A ->
  exists d, cov_lin_axis A c (length (cshape0 c) + length (cshape1 c) - 1) = Ok d /\
    shows d s0 [nrows A] (fun i j => fsum (map (fun k => fmul (entry A (nth 0 j 0) k) (h i [k])) (seq 0 (ncols A)))).
Proof.
  intros [E0 [E1 [[a [Ea [Sa Va]]] _]]] En. unfold cov_lin_axis. rewrite Ea, E0, E1. cbn [bind length].
  replace (length s0 + 1 - 1) with (length s0) by lia.
  destruct (lin_axis_ok A a s0 n [] Sa En) as [r [Er [Sr Vr]]]. rewrite Er. cbn [bind]. rewrite Sr, firstn_app_l, skipn_app_l by reflexivity.
  destruct (array_cov_shows r s0 [nrows A] Sr) as [d [-> Hd]]. exists d. split; [reflexivity|]. eapply shows_ext; [exact Hd|].
  intros i j Hi Hj. apply valid1_inv in Hj as [m [-> Hm]]. cbn [nth].
  rewrite Vr by (auto; now apply valid_index_length). apply fsum_seq_ext. intros k Hk. f_equal. apply (Va i [k]); auto. apply valid1. lia.
Qed.
Lemma lf_linop L A p q h : mk_plinop A p = Ok q -> lf_shows L p h ->
  lf_shows L q (fun s r => fsum (map (fun k => fmul (entry A (nth 0 r 0) k) (h s [k])) (seq 0 (ncols A)))).
Proof.
  intros M [c [Ec Hc]]. destruct (plinop_is _ _ _ M) as [-> R]. unfold lf_shows, functl_cov in *. cbn [lf_pv p_rev p_rv]. rewrite Ec. cbn [bind].
  rewrite R in Hc. destruct (p_rev p).
  - destruct (cov_lin_first A c (ncols A) (lf_out L) _ Hc eq_refl) as [d [-> Hd]]. exists d. auto.
  - destruct (cov_lin_last A c (lf_out L) (ncols A) _ Hc eq_refl) as [d [-> Hd]]. exists d. auto.
Qed.
Lemma fcomp_shows A f f' p c h : mk_fcomp A f = Ok f' -> f_pv f p = Ok c -> functl_cov c (p_rev p) (f_out f) (p_rv p) h ->
  exists d, f_pv f' p = Ok d /\ functl_cov d (p_rev p) (f_out f') (p_rv p)
    (fun s r => fsum (map (fun k => fmul (entry A (nth 0 s 0) k) (h [k] r)) (seq 0 (ncols A)))).
Proof.
  unfold mk_fcomp. intros M Ec Hc. destruct (length (f_out f) =? 1); [|discriminate].
  destruct (shape_eqb_spec (f_out f) [ncols A]) as [E|]; [|discriminate]. injection M as <-. cbn [f_pv f_out]. rewrite Ec. cbn [bind].
  rewrite E in Hc. unfold functl_cov in *. destruct (p_rev p).
  - destruct (cov_lin_last A c (p_rv p) (ncols A) _ Hc eq_refl) as [d [-> Hd]]. exists d. auto.
  - destruct (cov_lin_first A c (ncols A) (p_rv p) _ Hc eq_refl) as [d [-> Hd]]. exists d. auto.
Qed.
(** Functionals with their own rules on an evaluation: right for [DiracFunctional]. *)
Lemma lf_eval1 L insh out0 out1 v e : lf_dom L = insh -> lf_cod L = out0 -> mk_evalf (ev_dirac e) insh out1 (ev_X e) = Ok e ->
  (ev_dirac e = true \/ ev_cod e = [] \/ ev_batch e = []) ->
  lf_shows L (PEval (KLeaf insh out0 out1 v) e false) (fun s r => lf_act L (fun y o => v y (pt (ev_X e) (ev_point e r)) o (ev_output e r)) s).
Proof.
  intros ED EC HE D. destruct (ev_is _ _ _ _ _ HE) as [Ee SX]. assert (Ec : ev_cod e = out1) by (rewrite Ee; reflexivity). clear Ee HE.
  unfold lf_shows. cbn [lf_pv lf_kern]. unfold validate. cbn [k_in k_out0 k_out1 Nat.eqb orb negb]. rewrite ED, EC, !shape_eqb_refl. cbn [negb bind].
  destruct (leaf_shows insh out1 (lf_out L) true (fun z o r => lf_act L (fun y q => v y z q o) r) (ev_X e) (ev_batch e) SX) as [_ [[a [-> [Sa Va]]] _]].
  cbn [bind p_rev p_out p_rv] in *.
  assert (SO : ev_out e = ev_batch e ++ out1).
  { unfold ev_out. rewrite Ec. destruct D as [->|[D|D]]; [reflexivity| |]; [rewrite <- Ec, D|rewrite D]; rewrite ?app_nil_r; now destruct (ev_dirac e). }
  destruct (array_cov_shows a (lf_out L) (ev_out e)) as [c [-> Hc]]; [now rewrite SO|]. exists c. split; [reflexivity|].
  unfold functl_cov. eapply shows_ext; [exact Hc|]. cbn beta. intros s r Hs Hr.
  destruct (ev_out_inv e r Hr) as [i [o [Hi [Ho [Es [Eo Er]]]]]]. rewrite Es, Eo. rewrite Ec in Ho. rewrite <- (Va i o s Hi Ho Hs). f_equal. f_equal.
  rewrite Er. destruct D as [->|[D|D]]; [reflexivity| |].
  - rewrite <- Ec, D in Ho. inversion Ho. rewrite app_nil_r. now destruct (ev_dirac e).
  - rewrite D in Hi. inversion Hi. rewrite app_nil_r. now destruct (ev_dirac e).
Qed.
Lemma lf_eval0 L insh out0 out1 v e : lf_dom L = insh -> lf_cod L = out1 -> mk_evalf (ev_dirac e) insh out0 (ev_X e) = Ok e ->
  (ev_dirac e = true \/ ev_cod e = [] \/ ev_batch e = []) ->
  lf_shows L (PEval (KLeaf insh out0 out1 v) e true) (fun s r => lf_act L (fun y o => v (pt (ev_X e) (ev_point e r)) y (ev_output e r) o) s).
Proof.
  intros ED EC HE D. destruct (ev_is _ _ _ _ _ HE) as [Ee SX]. assert (Ec : ev_cod e = out0) by (rewrite Ee; reflexivity). clear Ee HE.
  unfold lf_shows. cbn [lf_pv lf_kern]. unfold validate. cbn [k_in k_out0 k_out1 Nat.eqb orb negb]. rewrite ED, EC, !shape_eqb_refl. cbn [negb bind].
  destruct (leaf_shows insh out0 (lf_out L) false (fun z o r => lf_act L (fun y q => v z y o q) r) (ev_X e) (ev_batch e) SX) as [_ [[a [-> [Sa Va]]] _]].
  cbn [bind p_rev p_out p_rv] in *.
  assert (SO : ev_out e = ev_batch e ++ out0).
  { unfold ev_out. rewrite Ec. destruct D as [->|[D|D]]; [reflexivity| |]; [rewrite <- Ec, D|rewrite D]; rewrite ?app_nil_r; now destruct (ev_dirac e). }
  destruct (array_cov_shows a (ev_out e) (lf_out L)) as [c [-> Hc]]; [now rewrite SO, <- app_assoc|]. exists c. split; [reflexivity|].
  unfold functl_cov. eapply shows_ext; [exact Hc|]. cbn beta. intros r s Hr Hs.
  destruct (ev_out_inv e r Hr) as [i [o [Hi [Ho [Es [Eo Er]]]]]]. rewrite Es, Eo. rewrite Ec in Ho. rewrite <- (Va i o s Hi Ho Hs). f_equal. rewrite app_assoc. f_equal.
  rewrite Er. destruct D as [->|[D|D]]; [reflexivity| |].
  - rewrite <- Ec, D in Ho. inversion Ho. rewrite app_nil_r. now destruct (ev_dirac e).
  - rewrite D in Hi. inversion Hi. rewrite app_nil_r. now destruct (ev_dirac e).
Qed.
End P.
