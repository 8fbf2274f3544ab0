(** Lemmas about the views of cross-covariances. *)
From Coq Require Import List Arith Lia Bool Permutation Ring Field_theory FunctionalExtensionality.
From Verif Require Import Base NdArray NdData BlockModel BlockSpec BlockProofs CovModel CovSpec CovProofs CrossModel CrossSpec CrossProofs CrossKern.
Import ListNotations.

Section P.
Context {F : fops} (LF : flaws F).
Add Ring FRing : (F_R (fl_field _ LF)).
Implicit Types (p : pvcc F) (x : nd F) (b out rv sh : shape).
Notation value := (index -> index -> index -> F).

(** The views of [p] at the points [x] with batch shape [b] show [g]: the array view
    does, and the class' own operator view, if it has one, does too. *)
Definition pv_shows p x b (g : value) : Prop :=
  nshape x = b ++ p_in p /\
  (exists a, p_call p x = Ok a /\ cross_array a (p_rev p) b (p_out p) (p_rv p) g) /\
  (p_own_linop p x = Err NotImplementedError \/
   exists m, p_own_linop p x = Ok m /\ cross_matrix m (p_rev p) b (p_out p) (p_rv p) g).

Lemma cross_matrix_entry (m : mat F) rev b out rv g : cross_matrix m rev b out rv g <->
  (if rev then nrows m = size rv /\ ncols m = size (out ++ b) else nrows m = size (out ++ b) /\ ncols m = size rv) /\
  forall i o r, valid_index b i -> valid_index out o -> valid_index rv r ->
    (if rev then entry m (ravel rv r) (ravel (out ++ b) (o ++ i)) else entry m (ravel (out ++ b) (o ++ i)) (ravel rv r)) = g i o r.
Proof.
  unfold cross_matrix, matrix_shows. destruct rev.
  - split.
    + intros [R [C H]]. split; [auto|]. intros i o r Hi Ho Hr. rewrite H by (try apply valid_index_app; assumption).
      apply valid_index_length in Ho. now rewrite skipn_app_l, firstn_app_l.
    + intros [[R C] H]. repeat split; auto. intros r oi Hr Hoi. apply valid_index_app_inv in Hoi as [o [i [-> [Ho Hi]]]].
      rewrite H by assumption. apply valid_index_length in Ho. now rewrite skipn_app_l, firstn_app_l.
  - split.
    + intros [R [C H]]. split; [auto|]. intros i o r Hi Ho Hr. rewrite H by (try apply valid_index_app; assumption).
      apply valid_index_length in Ho. now rewrite skipn_app_l, firstn_app_l.
    + intros [[R C] H]. repeat split; auto. intros oi r Hoi Hr. apply valid_index_app_inv in Hoi as [o [i [-> [Ho Hi]]]].
      rewrite H by assumption. apply valid_index_length in Ho. now rewrite skipn_app_l, firstn_app_l.
Qed.

Lemma p_call_unfold p x : p_call p x =
  bind (batch_shape (p_in p) x) (fun b =>
  bind (match p with
        | PLeaf _ outsh rv rev v =>
            Ok (Nd (p_layout rev b outsh rv) (fun l =>
                  if rev then v (pt x (firstn (length b) (skipn (length rv) l))) (skipn (length b) (skipn (length rv) l)) (firstn (length rv) l)
                  else v (pt x (firstn (length b) l)) (firstn (length outsh) (skipn (length b) l)) (skipn (length outsh) (skipn (length b) l))))
        | PZero _ outsh rv rev => Ok (Nd (p_layout rev b outsh rv) (fun _ => f0))
        | PEval k e rev => eval_array k e rev (p_out p) b x
        | PParam c _ n basis rev => param_array c n basis rev b x
        | PScaled c q => bind (p_call q x) (fun a => Ok (nd_map (fmul c) a))
        | PSum l => bind (mapR (fun q => p_call q x) l) (fun ls =>
            reduce nd_add (match ls with [] => [] | a :: r => nd_map (fadd f0) a :: r end))
        | PLinOp A q => bind (p_call q x) (fun a => lin_axis A a (if p_rev p then 0 else length (nshape a) - 1))
        | PStack sh l => bind (mapR (fun q => p_call q x) l) (stack_array sh (p_rv p) (p_rev p))
        end) (p_finish p b)).
Proof. now destruct p. Qed.
Lemma finish p b (a : nd F) g : cross_array a (p_rev p) b (p_out p) (p_rv p) g -> p_finish p b a = Ok a.
Proof. intros [E _]. unfold p_finish, p_layout. now rewrite E, shape_eqb_refl. Qed.
(** What the body of [_evaluate] has to deliver. *)
Lemma call_by p x b g (body : result (nd F)) : nshape x = b ++ p_in p ->
  p_call p x = bind (batch_shape (p_in p) x) (fun _ => bind body (p_finish p b)) ->
  (exists a, body = Ok a /\ cross_array a (p_rev p) b (p_out p) (p_rv p) g) ->
  exists a, p_call p x = Ok a /\ cross_array a (p_rev p) b (p_out p) (p_rv p) g.
Proof.
  intros E -> [a [-> S]]. rewrite (batch_shape_ok _ _ _ E). cbn [bind]. exists a. split; [|exact S]. now apply finish with (g := g).
Qed.
Lemma call_unfold_at p x b : nshape x = b ++ p_in p -> p_call p x =
  bind (batch_shape (p_in p) x) (fun _ => bind (match p with
        | PLeaf _ outsh rv rev v =>
            Ok (Nd (p_layout rev b outsh rv) (fun l =>
                  if rev then v (pt x (firstn (length b) (skipn (length rv) l))) (skipn (length b) (skipn (length rv) l)) (firstn (length rv) l)
                  else v (pt x (firstn (length b) l)) (firstn (length outsh) (skipn (length b) l)) (skipn (length outsh) (skipn (length b) l))))
        | PZero _ outsh rv rev => Ok (Nd (p_layout rev b outsh rv) (fun _ => f0))
        | PEval k e rev => eval_array k e rev (p_out p) b x
        | PParam c _ n basis rev => param_array c n basis rev b x
        | PScaled c q => bind (p_call q x) (fun a => Ok (nd_map (fmul c) a))
        | PSum l => bind (mapR (fun q => p_call q x) l) (fun ls =>
            reduce nd_add (match ls with [] => [] | a :: r => nd_map (fadd f0) a :: r end))
        | PLinOp A q => bind (p_call q x) (fun a => lin_axis A a (if p_rev p then 0 else length (nshape a) - 1))
        | PStack sh l => bind (mapR (fun q => p_call q x) l) (stack_array sh (p_rv p) (p_rev p))
        end) (p_finish p b)).
Proof. intros E. rewrite p_call_unfold, (batch_shape_ok _ _ _ E). reflexivity. Qed.

(** ** The fallback *)
Lemma fallback_ok p x b g a : nshape x = b ++ p_in p -> p_call p x = Ok a ->
  cross_array a (p_rev p) b (p_out p) (p_rv p) g ->
  exists m, p_fallback p x = Ok m /\ cross_matrix m (p_rev p) b (p_out p) (p_rv p) g.
Proof.
  intros E Ea [Sa Va]. unfold p_fallback. rewrite (batch_shape_ok _ _ _ E). cbn [bind]. rewrite Ea. cbn [bind].
  unfold move_shape_blocks. fold (block_perm [p_rv p; b; p_out p] [0; 2; 1]). fold (block_perm [b; p_out p; p_rv p] [1; 0; 2]).
  destruct (p_rev p).
  - destruct (transpose_blocks a [p_rv p; b; p_out p] [0; 2; 1]) as [t [-> [St Vt]]].
    { cbn. now rewrite app_nil_r. } { cbn. apply perm_skip, perm_swap. }
    cbn [bind]. cbn in St. rewrite app_nil_r in St.
    destruct (reshape_ok t [size (p_rv p); size (p_out p) * size b]) as [m [-> [Sm Vm]]].
    { rewrite St, !size_app. cbn. lia. }
    cbn [bind]. eexists. split; [reflexivity|]. apply cross_matrix_entry. unfold mat_of_nd. rewrite Sm. cbn [nrows ncols entry].
    split; [split; [reflexivity|now rewrite size_app]|]. intros i o r Hi Ho Hr. rewrite <- (Va i o r Hi Ho Hr).
    specialize (Vt [r; i; o]). cbn in Vt. rewrite !app_nil_r in Vt. rewrite <- Vt.
    2: { repeat constructor; symmetry; eapply valid_index_length; eassumption. }
    apply Vm.
    + rewrite St. repeat (apply valid_index_app; try assumption).
    + apply valid2; [now apply ravel_lt|]. rewrite <- size_app. apply ravel_lt. now apply valid_index_app.
    + rewrite St, (ravel_app (p_rv p)) by (try apply valid_index_app; assumption). rewrite ravel2, size_app. reflexivity.
  - destruct (transpose_blocks a [b; p_out p; p_rv p] [1; 0; 2]) as [t [-> [St Vt]]].
    { cbn. now rewrite app_nil_r. } { cbn. apply perm_swap. }
    cbn [bind]. cbn in St. rewrite app_nil_r in St.
    destruct (reshape_ok t [size (p_out p) * size b; size (p_rv p)]) as [m [-> [Sm Vm]]].
    { rewrite St, !size_app. cbn. lia. }
    cbn [bind]. eexists. split; [reflexivity|]. apply cross_matrix_entry. unfold mat_of_nd. rewrite Sm. cbn [nrows ncols entry].
    split; [split; [now rewrite size_app|reflexivity]|]. intros i o r Hi Ho Hr. rewrite <- (Va i o r Hi Ho Hr).
    specialize (Vt [i; o; r]). cbn in Vt. rewrite !app_nil_r in Vt. rewrite <- Vt.
    2: { repeat constructor; symmetry; eapply valid_index_length; eassumption. }
    apply Vm.
    + rewrite St. repeat (apply valid_index_app; try assumption).
    + apply valid2; [|now apply ravel_lt]. rewrite <- size_app. apply ravel_lt. now apply valid_index_app.
    + rewrite St, app_assoc, app_assoc, (ravel_app (p_out p ++ b)) by (try apply valid_index_app; assumption). now rewrite ravel2.
Qed.
Lemma linop_view p x b g : pv_shows p x b g ->
  exists m, p_linop p x = Ok m /\ cross_matrix m (p_rev p) b (p_out p) (p_rv p) g.
Proof.
  intros [E [[a [Ea Sa]] H]]. unfold p_linop, p_public. rewrite (batch_shape_ok _ _ _ E). cbn [bind].
  destruct H as [->|[m [-> Sm]]].
  - now apply (fallback_ok p x b g a).
  - now exists m.
Qed.

(** ** Leaves *)
Lemma leaf_shows insh out rv rev v x b : nshape x = b ++ insh ->
  pv_shows (PLeaf insh out rv rev v) x b (fun i o r => v (pt x i) o r).
Proof.
  intros E. split; [exact E|]. split; [|now left].
  apply (call_by (PLeaf insh out rv rev v) x b _ _ E (call_unfold_at (PLeaf insh out rv rev v) x b E)). eexists. split; [reflexivity|].
  cbn [p_rev p_out p_rv]. split; [reflexivity|]. intros i o r Hi Ho Hr. cbn [nat_].
  apply valid_index_length in Hi, Ho, Hr. destruct rev; rewrite !skipn_app_l, !firstn_app_l, ?skipn_app_l by assumption; reflexivity.
Qed.
Lemma zero_shows insh out rv rev x b : nshape x = b ++ insh -> pv_shows (PZero insh out rv rev) x b (fun _ _ _ => f0).
Proof.
  intros E. split; [exact E|]. split; [|now left].
  apply (call_by (PZero insh out rv rev) x b _ _ E (call_unfold_at (PZero insh out rv rev) x b E)). eexists. split; [reflexivity|].
  split; reflexivity.
Qed.
(** ** Arithmetic *)
Lemma scaled_shows c p x b g : pv_shows p x b g -> pv_shows (PScaled c p) x b (fun i o r => fmul c (g i o r)).
Proof.
  intros [E [[a [Ea [Sa Va]]] H]]. split; [exact E|]. split.
  - apply (call_by (PScaled c p) x b _ _ E (call_unfold_at (PScaled c p) x b E)). rewrite Ea. cbn [bind]. eexists. split; [reflexivity|].
    split; [exact Sa|]. intros i o r Hi Ho Hr. cbn. now rewrite Va.
  - cbn [p_own_linop p_rev p_out p_rv]. destruct H as [->|[m [-> Hm]]]; [now left|]. right. cbn [bind]. eexists. split; [reflexivity|].
    apply cross_matrix_entry in Hm as [Sm Vm]. apply cross_matrix_entry. split; [exact Sm|].
    intros i o r Hi Ho Hr. cbn. destruct (p_rev p); now rewrite Vm.
Qed.
Definition sum_values (gs : list value) : value := fun i o r => fsum (map (fun g => g i o r) gs).

Lemma mk_sum_is l p : mk_sum l = Ok p -> exists q l', l = q :: l' /\ p = PSum l /\
  Forall (fun c => p_in c = p_in q /\ p_out c = p_out q /\ p_rv c = p_rv q /\ p_rev c = p_rev q) l.
Proof.
  unfold mk_sum. destruct l as [|q l']; [discriminate|]. destruct (forallb _ (q :: l')) eqn:E; [|discriminate].
  intros [= <-]. exists q, l'. repeat split. rewrite forallb_forall in E. apply Forall_forall. intros c Hc. specialize (E c Hc).
  apply andb_prop in E as [E E4]. apply andb_prop in E as [E E3]. apply andb_prop in E as [E1 E2].
  destruct (shape_eqb_spec (p_in c) (p_in q)), (shape_eqb_spec (p_out c) (p_out q)), (shape_eqb_spec (p_rv c) (p_rv q)); try discriminate.
  apply eqb_prop in E4. auto.
Qed.
Lemma reduce_nd_add rev b out rv (gs : list value) (ls : list (nd F)) (a0 : nd F) (g0 : value) :
  cross_array a0 rev b out rv g0 -> Forall2 (fun a g => cross_array a rev b out rv g) ls gs ->
  exists r, reduceM nd_add a0 ls = Ok r /\ cross_array r rev b out rv (fun i o s => fadd (g0 i o s) (sum_values gs i o s)).
Proof.
  intros H0 H. revert a0 g0 H0. induction H as [|a g ls gs Ha H IH]; intros a0 g0 [S0 V0]; cbn [reduceM].
  - eexists. split; [reflexivity|]. split; [exact S0|]. intros i o r Hi Ho Hr. rewrite V0 by assumption. unfold sum_values, fsum. cbn [map fold_right]. ring.
  - destruct Ha as [Sa Va]. assert (EA : nd_add a0 a = Ok (nd_map2 fadd a0 a)) by (unfold nd_add; now rewrite S0, Sa, shape_eqb_refl).
    rewrite EA. cbn [bind].
    destruct (IH (nd_map2 fadd a0 a) (fun i o s => fadd (g0 i o s) (g i o s))) as [r [-> [Sr Vr]]].
    { split; [exact S0|]. intros i o r Hi Ho Hr. cbn. now rewrite V0, Va. }
    eexists. split; [reflexivity|]. split; [exact Sr|]. intros i o s Hi Ho Hs. rewrite Vr by assumption. unfold sum_values, fsum. cbn [map fold_right]. ring.
Qed.
Lemma reduce_mat_add rev b out rv (gs : list value) (ls : list (mat F)) (a0 : mat F) (g0 : value) :
  cross_matrix a0 rev b out rv g0 -> Forall2 (fun a g => cross_matrix a rev b out rv g) ls gs ->
  exists r, reduceM mat_add_checked a0 ls = Ok r /\ cross_matrix r rev b out rv (fun i o s => fadd (g0 i o s) (sum_values gs i o s)).
Proof.
  intros H0 H. revert a0 g0 H0. induction H as [|a g ls gs Ha H IH]; intros a0 g0 H0; apply cross_matrix_entry in H0 as [S0 V0]; cbn [reduceM].
  - eexists. split; [reflexivity|]. apply cross_matrix_entry. split; [exact S0|]. intros i o r Hi Ho Hr. rewrite V0 by assumption. unfold sum_values, fsum. cbn [map fold_right]. ring.
  - apply cross_matrix_entry in Ha as [Sa Va]. 
    assert (EA : mat_add_checked a0 a = Ok (mat_add a0 a)).
    { assert (ES : nrows a0 = nrows a /\ ncols a0 = ncols a) by (destruct rev, S0, Sa; split; congruence).
      unfold mat_add_checked. destruct ES as [-> ->]. now rewrite !Nat.eqb_refl. }
    rewrite EA. cbn [bind].
    destruct (IH (mat_add a0 a) (fun i o s => fadd (g0 i o s) (g i o s))) as [r [-> Hr]].
    { apply cross_matrix_entry. split; [exact S0|]. intros i o r Hi Ho Hr. cbn. specialize (V0 i o r Hi Ho Hr). specialize (Va i o r Hi Ho Hr).
      destruct rev; now rewrite V0, Va. }
    eexists. split; [reflexivity|]. apply cross_matrix_entry in Hr as [Sr Vr]. apply cross_matrix_entry. split; [exact Sr|].
    intros i o s Hi Ho Hs. rewrite Vr by assumption. unfold sum_values, fsum. cbn [map fold_right]. ring.
Qed.
Lemma cross_array_ext (a : nd F) rev b out rv (g h : value) : cross_array a rev b out rv g ->
  (forall i o r, valid_index b i -> valid_index out o -> valid_index rv r -> g i o r = h i o r) -> cross_array a rev b out rv h.
Proof. intros [S V] E. split; [exact S|]. intros i o r Hi Ho Hr. rewrite V by assumption. now apply E. Qed.
Lemma cross_matrix_ext (a : mat F) rev b out rv (g h : value) : cross_matrix a rev b out rv g ->
  (forall i o r, valid_index b i -> valid_index out o -> valid_index rv r -> g i o r = h i o r) -> cross_matrix a rev b out rv h.
Proof. intros H E. apply cross_matrix_entry in H as [S V]. apply cross_matrix_entry. split; [exact S|]. intros i o r Hi Ho Hr. rewrite V by assumption. now apply E. Qed.
Lemma sum_shows l p x b gs : mk_sum l = Ok p -> Forall2 (fun q g => pv_shows q x b g) l gs -> pv_shows p x b (sum_values gs).
Proof.
  intros M H. destruct (mk_sum_is l p M) as [q [l' [El [-> HS]]]].
  assert (A : exists as_, mapR (fun q => p_call q x) l = Ok as_ /\ Forall2 (fun a g => cross_array a (p_rev q) b (p_out q) (p_rv q) g) as_ gs).
  { clear M El. revert HS. induction H as [|c g l gs [E [[a [Ea Ha]] _]] H IH]; intros HS; cbn [mapR]; [eauto|].
    inversion HS as [|? ? [_ [Eo [Er Ev]]] HS']; subst. rewrite Ea. cbn [bind]. destruct (IH HS') as [as_ [-> Has]]. cbn [bind].
    eexists. split; [reflexivity|]. constructor; [|exact Has]. now rewrite <- Eo, <- Er, <- Ev. }
  assert (O : mapR (fun q => p_own_linop q x) l = Err NotImplementedError \/
    exists ms, mapR (fun q => p_own_linop q x) l = Ok ms /\ Forall2 (fun a g => cross_matrix a (p_rev q) b (p_out q) (p_rv q) g) ms gs).
  { clear M El A. revert HS. induction H as [|c g l gs [E [_ HO]] H IH]; intros HS; cbn [mapR]; [right; eauto|].
    inversion HS as [|? ? [_ [Eo [Er Ev]]] HS']; subst. destruct HO as [->|[m [-> Hm]]]; cbn [bind]; [now left|].
    destruct (IH HS') as [->|[ms [-> Hms]]]; cbn [bind]; [now left|]. right.
    eexists. split; [reflexivity|]. constructor; [|exact Hms]. now rewrite <- Eo, <- Er, <- Ev. }
  subst l. inversion H as [|? g ? gs' [E HQ] H']; subst.
  split; [exact E|]. split.
  - apply (call_by (PSum (q :: l')) x b _ _ E (call_unfold_at (PSum (q :: l')) x b E)).
    destruct A as [as_ [-> HA]]. cbn [bind]. inversion HA as [|a ? as' ? Ha HA']; subst. cbn [reduce p_rev p_out p_rv].
    destruct (reduce_nd_add (p_rev q) b (p_out q) (p_rv q) gs' as' (nd_map (fadd f0) a) g) as [r [-> Hr]].
    { destruct Ha as [Sa Va]. split; [exact Sa|]. intros i o r Hi Ho Hr. cbn. rewrite Va by assumption. ring. }
    { exact HA'. }
    exists r. split; [reflexivity|]. eapply cross_array_ext; [exact Hr|]. reflexivity.
  - cbn [p_own_linop p_rev p_out p_rv].
    change (bind (p_own_linop q x) (fun y => bind (mapR (fun q0 => p_own_linop q0 x) l') (fun ys => Ok (y :: ys)))) with (mapR (fun q0 => p_own_linop q0 x) (q :: l')).
    destruct O as [->|[ms [-> HM]]]; [now left|right]. cbn [bind]. inversion HM as [|m ? ms' ? Hm HM']; subst. cbn [reduce].
    destruct (reduce_mat_add _ _ _ _ gs' ms' m g Hm HM') as [r [-> Hr]]. exists r. split; [reflexivity|].
    eapply cross_matrix_ext; [exact Hr|]. reflexivity.
Qed.
End P.
