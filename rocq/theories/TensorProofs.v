(** Lemmas about tensor products and grids. *)
From Coq Require Import List Arith Lia Bool.
From Verif Require Import Base NdArray NdData BlockModel BlockSpec CovModel CovSpec CovProofs CrossModel CrossSpec CrossProofs CrossKern
  ParamSpec ParamProofs DiffopModel TensorModel TensorSpec.
Import ListNotations.

Section P.
Context {F : fops} (LF : flaws F).
Add Field Ftensor : (fl_field F LF).

(** ** Products *)
Ltac fp := cbn [map]; try change (fprod []) with (@f1 F); change (fprod (?u :: ?r)) with (fmul u (fprod r)); ring.
Lemma fprod_app (a b : list F) : fprod (a ++ b) = fmul (fprod a) (fprod b).
Proof.
  induction a as [|x a IH]; cbn [app]; [change (fprod []) with (@f1 F); ring|].
  change (fprod (?u :: ?r)) with (fmul u (fprod r)). rewrite IH. ring.
Qed.
Lemma fprod_ext {A} (f g : A -> F) l : (forall x, In x l -> f x = g x) -> fprod (map f l) = fprod (map g l).
Proof. intros H. f_equal. now apply map_ext_in. Qed.
Lemma tensor_ext {A B} n (g : nat -> A -> A -> F) (g' : nat -> B -> B -> F) x x' y y' :
  (forall m, m < n -> g m (x m) (y m) = g' m (x' m) (y' m)) -> tensor n g x y = tensor n g' x' y'.
Proof. intros H. apply fprod_ext. intros m Hm. apply in_seq in Hm. apply H. lia. Qed.


(** ** Leaves *)
Lemma leaf_values o0 o1 (v : point F -> point F -> index -> index -> F) (g : index -> index -> F -> F -> F) :
  (forall x y o q, v x y o q = g o q (x []) (y [])) -> has_values (KLeaf [] o0 o1 v) o0 o1 g.
Proof.
  intros H. split; try reflexivity.
  - intros x0 x1 b B. destruct (leaf_call [] o0 o1 v x0 x1 (nshape x0) (nshape (second x0 x1)) b) as [a [E [S V]]]; [split; now rewrite app_nil_r|exact B|].
    exists a. split; [exact E|]. split; [exact S|]. intros i o q Hi Ho Hq. rewrite V by assumption. unfold leaf_value. rewrite H. unfold pt. now rewrite !app_nil_r.
  - intros x0 x1 b B. destruct (leaf_jax [] o0 o1 v x0 x1 (nshape x0) (nshape (second x0 x1)) b) as [a [E [S V]]]; [split; now rewrite app_nil_r|exact B|].
    exists a. split; [exact E|]. split; [exact S|]. intros i o q Hi Ho Hq. rewrite V by assumption. unfold leaf_value. rewrite H. unfold pt. now rewrite !app_nil_r.
  - intros x0 x1. destruct (leaf_linop [] o0 o1 v x0 x1 (nshape x0) (nshape (second x0 x1))) as [m [E [R [C V]]]]; [split; now rewrite app_nil_r|].
    exists m. split; [exact E|]. split; [exact R|]. split; [exact C|]. intros i j o q Hi Hj Ho Hq. rewrite V by assumption. rewrite H. unfold pt. now rewrite !app_nil_r.
Qed.

(** ** Lists *)
Lemma enumerate_nth {A} (l : list A) i d : i < length l -> nth i (enumerate l) (0, d) = (i, nth i l d).
Proof. intros H. unfold enumerate. rewrite combine_nth by apply seq_length. f_equal. now rewrite seq_nth. Qed.
Lemma enumerate_length {A} (l : list A) : length (enumerate l) = length l.
Proof. unfold enumerate. rewrite combine_length, seq_length. lia. Qed.
Lemma map_enumerate {A B} (f : nat -> A -> B) (l : list A) d : map (fun p => f (fst p) (snd p)) (enumerate l) = map (fun m => f m (nth m l d)) (seq 0 (length l)).
Proof.
  apply (nth_ext _ _ (f 0 d) (f 0 d)); [now rewrite !map_length, enumerate_length, seq_length|].
  intros i Hi. rewrite map_length, enumerate_length in Hi.
  change (f 0 d) with ((fun p => f (fst p) (snd p)) (0, d)) at 1. rewrite map_nth, enumerate_nth by exact Hi. cbn [fst snd].
  rewrite (nth_indep _ _ (f 0 (nth 0 l d))) by now rewrite map_length, seq_length.
  etransitivity; [|symmetry; exact (map_nth (fun m => f m (nth m l d)) (seq 0 (length l)) 0 i)]. now rewrite seq_nth.
Qed.
Lemma mapR_enum {A B} (f : nat * A -> result B) (Q : nat -> B -> Prop) (l : list A) :
  (forall i x, nth_error l i = Some x -> exists y, f (i, x) = Ok y /\ Q i y) ->
  exists ys, mapR f (enumerate l) = Ok ys /\ length ys = length l /\ forall i y, nth_error ys i = Some y -> Q i y.
Proof.
  intros H. unfold enumerate.
  assert (G : forall s, (forall i x, nth_error l i = Some x -> exists y, f (s + i, x) = Ok y /\ Q (s + i) y) ->
    exists ys, mapR f (combine (seq s (length l)) l) = Ok ys /\ length ys = length l /\ forall i y, nth_error ys i = Some y -> Q (s + i) y).
  { clear H. induction l as [|a l IH]; intros s H.
    - exists []. split; [reflexivity|]. split; [reflexivity|]. intros [|i] y; discriminate.
    - cbn [length seq combine mapR]. destruct (H 0 a eq_refl) as [y [E Hy]]. rewrite Nat.add_0_r in E, Hy. rewrite E. cbn [bind].
      destruct (IH (S s)) as [ys [-> [Ly Hys]]].
      { intros i x Hx. destruct (H (S i) x Hx) as [z Hz]. exists z. now rewrite Nat.add_succ_r in Hz. }
      cbn [bind]. exists (y :: ys). split; [reflexivity|]. split; [cbn; now rewrite Ly|].
      intros [|i] z Hz; cbn in Hz; [injection Hz as <-; now rewrite Nat.add_0_r|]. rewrite Nat.add_succ_r. now apply (Hys i). }
  apply (G 0). exact H.
Qed.

(** ** Products of arrays *)
Lemma nd_mul_shows b o0 o1 a a' h h' : @cov_array F a b o0 o1 h -> cov_array a' b o0 o1 h' ->
  exists r, nd_mul a a' = Ok r /\ cov_array r b o0 o1 (fun i o q => fmul (h i o q) (h' i o q)).
Proof.
  intros [S V] [S' V']. unfold nd_mul. rewrite S, S', shape_eqb_refl. eexists. split; [reflexivity|].
  split; [exact S|]. intros i o q Hi Ho Hq. cbn [nat_ nd_map2]. now rewrite V, V'.
Qed.
Lemma cov_array_ext (a : nd F) b o0 o1 h h' : cov_array a b o0 o1 h ->
  (forall i o q, valid_index b i -> valid_index o0 o -> valid_index o1 q -> h i o q = h' i o q) -> cov_array a b o0 o1 h'.
Proof. intros [S V] H. split; [exact S|]. intros i o q Hi Ho Hq. rewrite V by assumption. now apply H. Qed.
Lemma reduceM_mul b o0 o1 as_ (hs : list (index -> index -> index -> F)) : Forall2 (fun a h => cov_array a b o0 o1 h) as_ hs ->
  forall acc h, cov_array acc b o0 o1 h ->
  exists r, reduceM nd_mul acc as_ = Ok r /\ cov_array r b o0 o1 (fun i o q => fmul (h i o q) (fprod (map (fun g => g i o q) hs))).
Proof.
  induction 1 as [|a g as_ hs Ha H IH]; intros acc h Hacc; cbn [reduceM].
  - exists acc. split; [reflexivity|]. apply (cov_array_ext _ _ _ _ _ _ Hacc). intros. fp.
  - destruct (nd_mul_shows _ _ _ _ _ _ _ Hacc Ha) as [r [-> Hr]]. cbn [bind]. destruct (IH _ _ Hr) as [r' [-> Hr']].
    exists r'. split; [reflexivity|]. apply (cov_array_ext _ _ _ _ _ _ Hr'). intros. fp.
Qed.
Lemma reduce_mul b o0 o1 as_ (hs : list (index -> index -> index -> F)) : Forall2 (fun a h => cov_array a b o0 o1 h) as_ hs -> as_ <> [] ->
  exists r, reduce nd_mul as_ = Ok r /\ cov_array r b o0 o1 (fun i o q => fprod (map (fun g => g i o q) hs)).
Proof.
  intros H N. destruct H as [|a g as_ hs Ha H]; [contradiction|]. cbn [reduce]. destruct (reduceM_mul _ _ _ _ _ H _ _ Ha) as [r [-> Hr]].
  exists r. split; [reflexivity|]. exact Hr.
Qed.
Lemma Forall2_seq {A B} (P : A -> B -> Prop) (l : list A) (f : nat -> B) :
  (forall i x, nth_error l i = Some x -> P x (f i)) -> Forall2 P l (map f (seq 0 (length l))).
Proof.
  intros H. assert (G : forall s, (forall i x, nth_error l i = Some x -> P x (f (s + i))) -> Forall2 P l (map f (seq s (length l)))).
  { clear H. induction l as [|a l IH]; intros s H; cbn [length seq map]; constructor.
    - specialize (H 0 a eq_refl). now rewrite Nat.add_0_r in H.
    - apply IH. intros i x Hx. specialize (H (S i) x Hx). now rewrite Nat.add_succ_r in H. }
  apply (G 0). exact H.
Qed.

Lemma take_last_ok (x : nd F) b n m : nshape x = b ++ [n] -> m < n ->
  exists y, take_last x m = Ok y /\ nshape y = b /\ forall i, nat_ y i = coordinate x i m.
Proof.
  intros E H. unfold take_last. rewrite E, rev_app_distr. cbn [rev app]. destruct (Nat.ltb_spec m n); [|lia].
  eexists. split; [reflexivity|]. cbn [nshape nat_]. rewrite rev_involutive. split; [reflexivity|]. reflexivity.
Qed.

(** ** Constructor *)
Lemma mk_tensor_ok l o0 o1 g : @tensor_ok F l o0 o1 g -> mk_tensor l = Ok l.
Proof.
  intros [N H]. unfold mk_tensor.
  assert (A : forallb (fun k => shape_eqb (k_in k) []) l = true).
  { apply forallb_forall. intros k Hk. apply In_nth_error in Hk as [m Hm]. rewrite (hv_in _ _ _ _ (H m k Hm)). apply shape_eqb_refl. }
  rewrite A. cbn [negb]. destruct l as [|c l]; [contradiction|].
  match goal with |- (if ?c then _ else _) = _ => replace c with true; [reflexivity|symmetry] end.
  apply forallb_forall. intros k Hk. apply In_nth_error in Hk as [m Hm]. pose proof (H m k Hm) as Hv. pose proof (H 0 c eq_refl) as Hc.
  rewrite (hv_out0 _ _ _ _ Hv), (hv_out1 _ _ _ _ Hv), (hv_out0 _ _ _ _ Hc), (hv_out1 _ _ _ _ Hc), !shape_eqb_refl. reflexivity.
Qed.
Lemma tensor_out l o0 o1 g : @tensor_ok F l o0 o1 g -> tp_out0 l = o0 /\ tp_out1 l = o1.
Proof.
  intros [N H]. destruct l as [|c l]; [contradiction|]. specialize (H 0 c eq_refl). cbn [tp_out0 tp_out1].
  split; [apply (hv_out0 _ _ _ _ H)|apply (hv_out1 _ _ _ _ H)].
Qed.

(** ** Evaluation *)
Section Eval.
Variables (call : kfun F -> nd F -> option (nd F) -> result (nd F)).
Variables (l : list (kfun F)) (o0 o1 : shape) (g : nat -> index -> index -> F -> F -> F).
Hypothesis OK : @tensor_ok F l o0 o1 g.
Hypothesis HC : forall m k, nth_error l m = Some k -> forall x0 x1 b, broadcast_shapes (nshape x0) (nshape (second x0 x1)) = Ok b ->
    exists a, call k x0 x1 = Ok a /\ cov_array a b o0 o1 (fun i o q =>
      g m o q (nat_ x0 (operand_index (nshape x0) i)) (nat_ (second x0 x1) (operand_index (nshape (second x0 x1)) i))).
Lemma tp_eval_ok x0 x1 b0 b1 b : points (tp_in l) x0 x1 b0 b1 -> broadcast_shapes b0 b1 = Ok b ->
  exists a, bind (evaluate_dimensionwise call l x0 x1) (reduce nd_mul) = Ok a /\
    cov_array a b o0 o1 (fun i o q => tensor (length l) (fun m => g m o q) (coordinate x0 (operand_index b0 i)) (coordinate (second x0 x1) (operand_index b1 i))).
Proof.
  intros [E0 E1] B. destruct OK as [N H]. unfold evaluate_dimensionwise, tp_in in *.
  destruct (mapR_enum (fun '(i, k) => bind (take_last x0 i) (fun y0 => bind (take_last_opt x1 i) (fun y1 => call k y0 y1)))
    (fun m a => cov_array a b o0 o1 (fun i o q => g m o q (coordinate x0 (operand_index b0 i) m) (coordinate (second x0 x1) (operand_index b1 i) m))) l) as [as_ [-> [L V]]].
  { intros m k Hk. assert (Hm : m < length l) by (apply nth_error_Some; congruence).
    destruct (take_last_ok x0 b0 _ m E0 Hm) as [y0 [-> [Sy0 Vy0]]]. cbn [bind].
    destruct (take_last_ok _ b1 _ m E1 Hm) as [y1 [Ey1 [Sy1 Vy1]]].
    assert (T : exists y1', take_last_opt x1 m = Ok y1' /\ nshape (second y0 y1') = b1 /\ forall i, nat_ (second y0 y1') i = coordinate (second x0 x1) i m).
    { destruct x1 as [x1|]; cbn [second take_last_opt] in *.
      - rewrite Ey1. cbn [bind]. exists (Some y1). auto.
      - exists None. split; [reflexivity|]. cbn [second]. split; [|exact Vy0]. rewrite Sy0. rewrite E0 in E1. now apply app_inj_tail in E1 as [-> _]. }
    destruct T as [y1' [-> [Sy1' Vy1']]]. cbn [bind].
    destruct (HC m k Hk y0 y1' b) as [a [-> Ha]]; [now rewrite Sy0, Sy1'|]. exists a. split; [reflexivity|].
    apply (cov_array_ext _ _ _ _ _ _ Ha). intros i o q Hi Ho Hq. now rewrite Vy0, Vy1', Sy0, Sy1'. }
  cbn [bind]. destruct (reduce_mul b o0 o1 as_ (map (fun m i o q => g m o q (coordinate x0 (operand_index b0 i) m) (coordinate (second x0 x1) (operand_index b1 i) m)) (seq 0 (length as_)))) as [r [-> Hr]].
  - apply (Forall2_seq (fun a h => cov_array a b o0 o1 h)). exact V.
  - intros ->. apply N. now destruct l.
  - exists r. split; [reflexivity|]. apply (cov_array_ext _ _ _ _ _ _ Hr). intros i o q _ _ _. rewrite map_map, L. reflexivity.
Qed.
End Eval.
Lemma tp_finish_ok l o0 o1 g b (a : nd F) h : @tensor_ok F l o0 o1 g -> cov_array a b o0 o1 h -> tp_finish l b a = Ok a.
Proof. intros OK [S _]. unfold tp_finish. destruct (tensor_out _ _ _ _ OK) as [-> ->]. now rewrite S, shape_eqb_refl. Qed.
Lemma tp_call_ok l o0 o1 g x0 x1 b0 b1 b : @tensor_ok F l o0 o1 g -> points (tp_in l) x0 x1 b0 b1 -> broadcast_shapes b0 b1 = Ok b ->
  exists a, tp_call l x0 x1 = Ok a /\
    cov_array a b o0 o1 (fun i o q => tensor (length l) (fun m => g m o q) (coordinate x0 (operand_index b0 i)) (coordinate (second x0 x1) (operand_index b1 i))).
Proof.
  intros OK HP B. unfold tp_call. rewrite (check_ok _ _ _ _ _ _ HP B). cbn [bind].
  destruct (tp_eval_ok (@k_call F) l o0 o1 g OK) with (x0 := x0) (x1 := x1) (b0 := b0) (b1 := b1) (b := b) as [a [-> Ha]]; try assumption.
  { intros m k Hk. apply (hv_call _ _ _ _ (proj2 OK m k Hk)). }
  cbn [bind]. exists a. split; [|exact Ha]. apply (tp_finish_ok _ _ _ _ _ _ _ OK Ha).
Qed.
Lemma tp_jax_ok l o0 o1 g x0 x1 b0 b1 b : @tensor_ok F l o0 o1 g -> points (tp_in l) x0 x1 b0 b1 -> broadcast_shapes b0 b1 = Ok b ->
  exists a, tp_jax l x0 x1 = Ok a /\
    cov_array a b o0 o1 (fun i o q => tensor (length l) (fun m => g m o q) (coordinate x0 (operand_index b0 i)) (coordinate (second x0 x1) (operand_index b1 i))).
Proof.
  intros OK HP B. unfold tp_jax. rewrite (check_ok _ _ _ _ _ _ HP B). cbn [bind].
  destruct (tp_eval_ok (@k_jax F) l o0 o1 g OK) with (x0 := x0) (x1 := x1) (b0 := b0) (b1 := b1) (b := b) as [a [-> Ha]]; try assumption.
  { intros m k Hk. apply (hv_jax _ _ _ _ (proj2 OK m k Hk)). }
  cbn [bind]. exists a. split; [|exact Ha]. apply (tp_finish_ok _ _ _ _ _ _ _ OK Ha).
Qed.

(** ** All pairs *)
Lemma broadcast_pairs n0 n1 : exists b, broadcast_shapes [n0; 1] [1; n1] = Ok b /\
  (forall r c, r < n0 -> c < n1 -> valid_index b [r; c] /\ operand_index [n0; 1] [r; c] = [r; 0] /\ operand_index [1; n1] [r; c] = [0; c]).
Proof.
  exists [n0; n1]. split.
  - unfold broadcast_shapes. cbn [rev app broadcast_rev].
    destruct (Nat.eqb_spec 1 n1) as [<-|H1]; cbn [Nat.eqb]; destruct (Nat.eqb_spec n0 1) as [->|H0]; cbn; reflexivity.
  - intros r c Hr Hc. split; [repeat constructor; assumption|]. unfold operand_index. cbn [length Nat.sub skipn combine map].
    split; [destruct (Nat.eqb_spec n0 1); cbn; f_equal; lia|]. cbn. destruct (Nat.eqb_spec n1 1); f_equal; f_equal; lia.
Qed.
Lemma all_pairs_ok (call : nd F -> option (nd F) -> result (nd F)) insh o0 o1 x0 x1 b0 b1 (h : index -> index -> (index -> F) -> (index -> F) -> F) :
  points insh x0 x1 b0 b1 ->
  (forall X0 X1 c0 c1 b, nshape X0 = c0 ++ insh -> nshape X1 = c1 ++ insh -> broadcast_shapes c0 c1 = Ok b ->
     exists a, call X0 (Some X1) = Ok a /\ cov_array a b o0 o1 (fun i o q => h o q (fun j => nat_ X0 (operand_index c0 i ++ j)) (fun j => nat_ X1 (operand_index c1 i ++ j)))) ->
  exists m, all_pairs call insh o0 o1 x0 x1 = Ok m /\
    cov_matrix m b0 b1 o0 o1 (fun i j o q => h o q (fun l => nat_ x0 (i ++ l)) (fun l => nat_ (second x0 x1) (j ++ l))).
Proof.
  intros [E0 E1] HC. unfold all_pairs. rewrite (batch_shape_ok _ _ _ E0), (batch_shape_ok _ _ _ E1). cbn [bind].
  destruct (broadcast_pairs (size b0) (size b1)) as [b [B HB]].
  match goal with |- context [call ?X (Some ?Y)] => destruct (HC X Y [size b0; 1] [1; size b1] b eq_refl eq_refl B) as [a [-> Ha]] end.
  cbn [bind]. eexists. split; [reflexivity|]. unfold cov_matrix. cbn [nrows ncols entry]. rewrite !size_app. split; [reflexivity|]. split; [reflexivity|].
  intros i j o q Hi Hj Ho Hq. pose proof (ravel_lt _ _ Hi) as Ri. pose proof (ravel_lt _ _ Hj) as Rj.
  rewrite !ravel_app by assumption. rewrite (Nat.add_comm (_ * size b0)), (Nat.add_comm (_ * size b1)).
  rewrite !Nat.mod_add, !Nat.div_add, !Nat.mod_small, !Nat.div_small by lia. cbn [Nat.add]. rewrite !unravel_ravel by assumption.
  destruct (HB _ _ Ri Rj) as [Vb [O0 O1]]. destruct Ha as [_ Va]. rewrite Va by assumption. rewrite O0, O1.
  cbn [nat_ nth app skipn]. now rewrite !unravel_ravel by assumption.
Qed.

(** ** Kronecker products *)
Lemma kron_shows (a b : mat F) s t s' t' h h' : matrix_shows a s t h -> matrix_shows b s' t' h' ->
  matrix_shows (kron a b) (s ++ s') (t ++ t') (fun i j => fmul (h (firstn (length s) i) (firstn (length t) j)) (h' (skipn (length s) i) (skipn (length t) j))).
Proof.
  intros [R [C V]] [R' [C' V']]. unfold matrix_shows, kron. cbn [nrows ncols entry]. rewrite !size_app, R, R', C, C'. split; [reflexivity|]. split; [reflexivity|].
  intros i j Hi Hj. apply valid_index_app_inv in Hi as [i1 [i2 [-> [H1 H2]]]]. apply valid_index_app_inv in Hj as [j1 [j2 [-> [H3 H4]]]].
  rewrite !ravel_app by assumption. pose proof (ravel_lt _ _ H2). pose proof (ravel_lt _ _ H4).
  rewrite (Nat.add_comm (_ * size s')), (Nat.add_comm (_ * size t')).
  rewrite !Nat.mod_add, !Nat.div_add, !Nat.mod_small, !Nat.div_small by lia. cbn [Nat.add].
  rewrite V, V' by assumption. apply valid_index_length in H1, H3. now rewrite !firstn_app_l, !skipn_app_l by assumption.
Qed.

Lemma matrix_shows_ext (m : mat F) s t h h' : matrix_shows m s t h -> (forall i j, valid_index s i -> valid_index t j -> h i j = h' i j) -> matrix_shows m s t h'.
Proof. intros [R [C V]] H. split; [exact R|]. split; [exact C|]. intros i j Hi Hj. rewrite V by assumption. now apply H. Qed.
(** A product of factors that depend on one entry of each index. *)
Fixpoint pk (es : list (nat -> nat -> F)) (i j : index) : F :=
  match es, i, j with e :: es', a :: i', b :: j' => fmul (e a b) (pk es' i' j') | _, _, _ => f1 end.
Lemma pk_app es es' i i' j j' : length i = length es -> length j = length es -> pk (es ++ es') (i ++ i') (j ++ j') = fmul (pk es i j) (pk es' i' j').
Proof.
  revert i j. induction es as [|e es IH]; intros [|a i] [|b j]; cbn [length]; intros E1 E2; try discriminate; cbn [app pk]; [ring|].
  rewrite IH by lia. ring.
Qed.
Lemma pk_tensor es i j d : length i = length es -> length j = length es ->
  pk es i j = tensor (length es) (fun m a b => nth m es d a b) (fun m => nth m i 0) (fun m => nth m j 0).
Proof.
  revert i j. induction es as [|e es IH]; intros [|a i] [|b j]; cbn [length]; intros E1 E2; try discriminate; [reflexivity|].
  cbn [pk]. rewrite IH by lia. unfold tensor. cbn [seq map nth]. change (fprod (?u :: ?r)) with (fmul u (fprod r)). rewrite <- (seq_shift _ 0), map_map. reflexivity.
Qed.
Lemma reduceM_kron ms (fs : list (nat * nat * (nat -> nat -> F))) :
  Forall2 (fun m f => matrix_shows m [fst (fst f)] [snd (fst f)] (fun i j => snd f (nth 0 i 0) (nth 0 j 0))) ms fs ->
  forall acc ns ps es, length ns = length es -> length ps = length es -> matrix_shows acc ns ps (pk es) ->
  exists r, reduceM (fun a b => Ok (kron a b)) acc ms = Ok r /\
    matrix_shows r (ns ++ map (fun f => fst (fst f)) fs) (ps ++ map (fun f => snd (fst f)) fs) (pk (es ++ map snd fs)).
Proof.
  induction 1 as [|m f ms fs Hm H IH]; intros acc ns ps es Ln Lp Hacc; cbn [reduceM map].
  - exists acc. rewrite !app_nil_r. auto.
  - cbn [bind]. pose proof (kron_shows _ _ _ _ _ _ _ _ Hacc Hm) as HK.
    destruct (IH (kron acc m) (ns ++ [fst (fst f)]) (ps ++ [snd (fst f)]) (es ++ [snd f])) as [r [-> Hr]].
    + rewrite !app_length. cbn. lia.
    + rewrite !app_length. cbn. lia.
    + apply (matrix_shows_ext _ _ _ _ _ HK). intros i j Hi Hj.
      apply valid_index_app_inv in Hi as [i1 [i2 [-> [H1 H2]]]]. apply valid_index_app_inv in Hj as [j1 [j2 [-> [H3 H4]]]].
      apply valid_index_length in H1, H3. rewrite !firstn_app_l, !skipn_app_l by assumption. rewrite pk_app by congruence. f_equal.
      inversion H2 as [|a x i' y Ha Hi']; subst. inversion Hi'; subst. inversion H4 as [|b x' j' y' Hb Hj']; subst. inversion Hj'; subst. cbn. ring.
    + exists r. split; [reflexivity|]. rewrite <- !app_assoc in Hr. exact Hr.
Qed.
Lemma reduce_kron_ok ms (fs : list (nat * nat * (nat -> nat -> F))) :
  Forall2 (fun m f => matrix_shows m [fst (fst f)] [snd (fst f)] (fun i j => snd f (nth 0 i 0) (nth 0 j 0))) ms fs -> ms <> [] ->
  exists r, reduce_kron ms = Ok r /\ matrix_shows r (map (fun f => fst (fst f)) fs) (map (fun f => snd (fst f)) fs) (pk (map snd fs)).
Proof.
  intros H N. destruct H as [|m f ms fs Hm H]; [contradiction|]. unfold reduce_kron. cbn [reduce].
  destruct (reduceM_kron ms fs H m [fst (fst f)] [snd (fst f)] [snd f]) as [r [-> Hr]]; try reflexivity.
  - apply (matrix_shows_ext _ _ _ _ _ Hm). intros i j Hi Hj.
    inversion Hi as [|a x i' y Ha Hi']; subst. inversion Hi'; subst. inversion Hj as [|b x' j' y' Hb Hj']; subst. inversion Hj'; subst. cbn. ring.
  - exists r. split; [reflexivity|]. exact Hr.
Qed.
(** The flat view of a matrix over arrays of points. *)
Lemma flat_shows (m : mat F) s t h : cov_matrix m s t [] [] h ->
  matrix_shows m [size s] [size t] (fun i j => h (unravel s (nth 0 i 0)) (unravel t (nth 0 j 0)) [] []).
Proof.
  intros [R [C V]]. cbn [app] in *. split; [rewrite R; cbn; lia|]. split; [rewrite C; cbn; lia|].
  intros i j Hi Hj. inversion Hi as [|a x i' y Ha Hi']; subst. inversion Hi'; subst. inversion Hj as [|b x' j' y' Hb Hj']; subst. inversion Hj'; subst.
  cbn [ravel nth fold_right]. cbn. rewrite !Nat.mul_1_r, !Nat.add_0_r.
  specialize (V (unravel s a) (unravel t b) [] [] (unravel_valid _ _ Ha) (unravel_valid _ _ Hb)). cbn [app] in V.
  rewrite !ravel_unravel in V by assumption. apply V; constructor.
Qed.

(** ** Grids *)
Lemma meshgrid_nth (fs : list (nd F)) ix ms m : np_meshgrid fs ix = Ok ms -> m < length fs ->
  nth m ms dnd = Nd (mesh_shape ix (sizes fs)) (fun l => flat (nth m fs dnd) (nth m (mesh_index ix l) 0)).
Proof.
  intros E H. unfold np_meshgrid in E.
  assert (G : ms = map (fun p => Nd (mesh_shape ix (sizes fs)) (fun l => flat (snd p) (nth (fst p) (mesh_index ix l) 0))) (enumerate fs)).
  { destruct ix; try discriminate; injection E as <-; apply map_ext; intros [m' f]; reflexivity. }
  rewrite G, (map_enumerate (fun m f => Nd (mesh_shape ix (sizes fs)) (fun l => flat f (nth m (mesh_index ix l) 0))) fs dnd).
  erewrite (nth_indep _ _ (_ 0)) by now rewrite map_length, seq_length.
  etransitivity; [exact (map_nth (fun m => Nd (mesh_shape ix (sizes fs)) (fun l => flat (nth m fs dnd) (nth m (mesh_index ix l) 0))) (seq 0 (length fs)) 0 m)|].
  now rewrite seq_nth.
Qed.
Lemma meshgrid_length (fs : list (nd F)) ix ms : np_meshgrid fs ix = Ok ms -> length ms = length fs.
Proof. intros E. unfold np_meshgrid in E. destruct ix; try discriminate; injection E as <-; now rewrite map_length, enumerate_length. Qed.
Lemma stack_last_ok (l : list (nd F)) s : l <> [] -> (forall m, m < length l -> nshape (nth m l dnd) = s) ->
  exists x, np_stack_last l = Ok x /\ nshape x = s ++ [length l] /\ forall i m, m < length l -> nat_ x (i ++ [m]) = nat_ (nth m l dnd) i.
Proof.
  intros N H. destruct l as [|a l]; [contradiction|]. unfold np_stack_last. pose proof (H 0 (Nat.lt_0_succ _)) as Ha. cbn [nth] in Ha.
  match goal with |- context [if ?c then _ else _] => replace c with true end.
  2: { symmetry. apply forallb_forall. intros b Hb. apply (In_nth _ _ dnd) in Hb as [m [Hm <-]]. rewrite (H m Hm), Ha. apply shape_eqb_refl. }
  eexists. split; [reflexivity|]. cbn [nshape nat_]. rewrite Ha. split; [reflexivity|].
  intros i m Hm. rewrite last_last, removelast_last. now rewrite (nth_indep _ a dnd) by exact Hm.
Qed.
Lemma mk_grid_ok (fs : list (nd F)) ix : fs <> [] -> ix <> OtherIndexing ->
  exists x, mk_grid fs ix = Ok (PGrid x (Some fs)) /\ nshape x = mesh_shape ix (sizes fs) ++ [length fs] /\
    forall i m, m < length fs -> nat_ x (i ++ [m]) = flat (nth m fs dnd) (nth m (mesh_index ix i) 0).
Proof.
  intros N NI. unfold mk_grid. destruct (np_meshgrid fs ix) as [ms|e] eqn:E; [|unfold np_meshgrid in E; destruct ix; try discriminate; contradiction].
  cbn [bind]. pose proof (meshgrid_length _ _ _ E) as L.
  destruct (stack_last_ok ms (mesh_shape ix (sizes fs))) as [x [-> [S V]]].
  - intros ->. destruct fs; [contradiction|discriminate].
  - intros m Hm. rewrite L in Hm. now rewrite (meshgrid_nth _ _ _ _ E Hm).
  - cbn [bind]. exists x. split; [reflexivity|]. rewrite L in S, V. split; [exact S|]. intros i m Hm. rewrite V by exact Hm. now rewrite (meshgrid_nth _ _ _ _ E Hm).
Qed.
Lemma mk_grid_inv (fs : list (nd F)) ix g0 : mk_grid fs ix = Ok g0 -> fs <> [] /\ ix <> OtherIndexing.
Proof.
  unfold mk_grid. intros H. split.
  - intros ->. destruct ix; cbn in H; discriminate.
  - intros ->. discriminate.
Qed.

(** ** Operators on grids *)
Lemma combine_map_r {A B} (f : A -> B) (l : list A) : combine l (map f l) = map (fun x => (x, f x)) l.
Proof. induction l as [|a l IH]; [reflexivity|]. cbn. now rewrite IH. Qed.
(** The second factors: those of the second grid, or nothing. *)
Definition second_factors (fs0 : list (nd F)) (fs1 : option (list (nd F))) : list (option (nd F)) :=
  match fs1 with Some l => map Some l | None => map (fun _ => None) fs0 end.
Definition used (fs0 : list (nd F)) (fs1 : option (list (nd F))) : list (nd F) := match fs1 with Some l => l | None => fs0 end.
Lemma kron_factors l g fs0 fs1 : @tensor_ok F l [] [] g -> length fs0 = length l -> length (used fs0 fs1) = length l ->
  exists M, bind (mapR (fun '(idx, (f0, f1)) => match nth_error l idx with None => Err IndexError | Some k => k_linop k f0 f1 end)
                   (enumerate (combine fs0 (second_factors fs0 fs1)))) reduce_kron = Ok M /\
    matrix_shows M (sizes fs0) (sizes (used fs0 fs1)) (fun i j =>
      tensor (length l) (fun m => g m [] []) (fun m => flat (nth m fs0 dnd) (nth m i 0)) (fun m => flat (nth m (used fs0 fs1) dnd) (nth m j 0))).
Proof.
  intros [N H] L0 L1. set (h := fun m a b => g m [] [] (flat (nth m fs0 dnd) a) (flat (nth m (used fs0 fs1) dnd) b)).
  assert (LC : length (combine fs0 (second_factors fs0 fs1)) = length l).
  { rewrite combine_length. unfold second_factors, used in *. destruct fs1; rewrite map_length; lia. }
  destruct (mapR_enum (fun '(idx, (f0, f1)) => match nth_error l idx with None => Err IndexError | Some k => k_linop k f0 f1 end)
    (fun m M => matrix_shows M [size (nshape (nth m fs0 dnd))] [size (nshape (nth m (used fs0 fs1) dnd))] (fun i j => h m (nth 0 i 0) (nth 0 j 0)))
    (combine fs0 (second_factors fs0 fs1))) as [ms [-> [Lm V]]].
  { intros m [f0 f1] Hm. assert (Hl : m < length l) by (rewrite <- LC; apply nth_error_Some; congruence).
    destruct (nth_error l m) as [k|] eqn:Ek; [|apply nth_error_None in Ek; lia].
    assert (E : f0 = nth m fs0 dnd /\ second f0 f1 = nth m (used fs0 fs1) dnd).
    { apply (nth_error_nth _ _ (dnd, None)) in Hm. unfold second_factors, used in *. destruct fs1 as [fs1|].
      - rewrite combine_nth in Hm by (rewrite map_length; congruence). injection Hm as <- Hm. split; [reflexivity|]. rewrite <- Hm.
        rewrite (nth_indep _ None (Some dnd)) by (rewrite map_length; congruence). now rewrite map_nth.
      - rewrite combine_map_r in Hm. pose proof (map_nth (fun x : nd F => (x, @None (nd F))) fs0 dnd m) as E. pose proof (eq_trans (eq_sym Hm) E) as E'. cbv beta in E'. injection E' as -> ->. auto. }
    destruct E as [-> E]. destruct (hv_linop _ _ _ _ (H m k Ek) (nth m fs0 dnd) f1) as [M [-> HM]]. exists M. split; [reflexivity|].
    apply flat_shows in HM. rewrite E in HM. exact HM. }
  cbn [bind]. rewrite LC in Lm.
  destruct (reduce_kron_ok ms (map (fun m => (size (nshape (nth m fs0 dnd)), size (nshape (nth m (used fs0 fs1) dnd)), h m)) (seq 0 (length ms)))) as [M [-> HM]].
  - apply (Forall2_seq (fun (m : mat F) (f : nat * nat * (nat -> nat -> F)) => matrix_shows m [fst (fst f)] [snd (fst f)] (fun i j => snd f (nth 0 i 0) (nth 0 j 0)))). exact V.
  - intros ->. apply N. now destruct l.
  - exists M. split; [reflexivity|]. rewrite !map_map in HM. cbn [fst snd] in HM.
    assert (ES : forall fs : list (nd F), length fs = length l -> map (fun m => size (nshape (nth m fs dnd))) (seq 0 (length ms)) = sizes fs).
    { intros fs Hl. unfold sizes. rewrite Lm, <- Hl. apply (nth_ext _ _ 0 0); [now rewrite !map_length, seq_length|].
      intros n Hn. rewrite map_length, seq_length in Hn. rewrite (nth_indep _ _ ((fun m => size (nshape (nth m fs dnd))) 0)) by now rewrite map_length, seq_length.
      etransitivity; [exact (map_nth (fun m => size (nshape (nth m fs dnd))) (seq 0 (length fs)) 0 n)|]. rewrite seq_nth by exact Hn. cbn [Nat.add].
      rewrite (nth_indep _ 0 ((fun f : nd F => size (nshape f)) dnd)) by now rewrite map_length. now rewrite (map_nth (fun f : nd F => size (nshape f))). }
    rewrite !ES in HM by assumption. apply (matrix_shows_ext _ _ _ _ _ HM). intros i j Hi Hj. apply valid_index_length in Hi, Hj.
    unfold sizes in Hi, Hj. rewrite map_length in Hi, Hj.
    rewrite (pk_tensor _ _ _ (h 0)) by (rewrite map_length, seq_length; congruence). rewrite map_length, seq_length, Lm.
    apply tensor_ext. intros m Hm. rewrite (map_nth h), seq_nth by lia. reflexivity.
Qed.
Lemma tp_linop_grids l x0 x1 fs0 fs1 : tp_linop l (PGrid x0 (Some fs0)) (match fs1 with Some f => Some (PGrid x1 (Some f)) | None => None end) =
  bind (mapR (fun '(idx, (f0, f1)) => match nth_error l idx with None => Err IndexError | Some k => k_linop k f0 f1 end)
         (enumerate (combine fs0 (second_factors fs0 fs1)))) reduce_kron.
Proof. unfold tp_linop. destruct fs1; reflexivity. Qed.
End P.
