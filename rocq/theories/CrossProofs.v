(** Lemmas about the model of cross-covariances. *)
From Coq Require Import List Arith Lia Bool Permutation Ring Field_theory FunctionalExtensionality.
From Verif Require Import Base NdArray NdData BlockModel BlockSpec BlockProofs BlockProps CovModel CovSpec CovProofs CrossModel CrossSpec.
Import ListNotations.

(** ** Lists and blocks of axes *)
Lemma pick_block (a b c : list nat) d :
  map (fun p => nth p (a ++ b ++ c) d) (seq (length a) (length b)) = b.
Proof.
  revert a. induction b as [|x b IH]; intros a; [reflexivity|]. cbn [length seq map]. f_equal.
  - rewrite app_nth2, Nat.sub_diag by lia. reflexivity.
  - specialize (IH (a ++ [x])). rewrite app_length, <- app_assoc in IH. cbn [length app] in IH.
    rewrite Nat.add_1_r in IH. exact IH.
Qed.
Lemma block_axes_length off (shapes : list shape) : length (block_axes off shapes) = length shapes.
Proof. revert off. induction shapes as [|s r IH]; intros off; cbn; [reflexivity|]. now rewrite IH. Qed.
Lemma block_axes_pick (shapes : list shape) (ls : list (list nat)) pre i :
  Forall2 (fun (s l : list nat) => length s = length l) shapes ls ->
  map (fun p => nth p (pre ++ concat ls) 0) (nth i (block_axes (length pre) shapes) []) = nth i ls [].
Proof.
  intros H. revert pre i. induction H as [|s l shapes ls E H IH]; intros pre i; [now destruct i|].
  destruct i as [|i]; cbn [block_axes nth concat].
  - rewrite E. apply pick_block.
  - specialize (IH (pre ++ l) i). rewrite app_length, <- app_assoc in IH. rewrite E. exact IH.
Qed.
Definition block_perm (shapes : list shape) (np : list nat) : list nat :=
  concat (map (fun i => nth i (block_axes 0 shapes) []) np).
Lemma block_perm_pick shapes ls np : Forall2 (fun (s l : list nat) => length s = length l) shapes ls ->
  map (fun p => nth p (concat ls) 0) (block_perm shapes np) = concat (map (fun i => nth i ls []) np).
Proof.
  intros H. unfold block_perm. rewrite concat_map, map_map. f_equal. apply map_ext. intros i.
  apply (block_axes_pick shapes ls [] i H).
Qed.
Lemma Permutation_concat {A} (l m : list (list A)) : Permutation l m -> Permutation (concat l) (concat m).
Proof.
  induction 1 as [|x l m P IH|x y l|l m n P1 IH1 P2 IH2]; cbn.
  - constructor.
  - now apply Permutation_app_head.
  - rewrite !app_assoc. apply Permutation_app_tail, Permutation_app_comm.
  - now transitivity (concat m).
Qed.
Lemma map_nth_seq {A} (l : list A) d : map (fun i => nth i l d) (seq 0 (length l)) = l.
Proof.
  induction l as [|x l IH]; [reflexivity|]. cbn [length seq map nth]. f_equal. rewrite <- seq_shift, map_map. exact IH.
Qed.
Lemma concat_block_axes off (shapes : list shape) : concat (block_axes off shapes) = seq off (length (concat shapes)).
Proof.
  revert off. induction shapes as [|s r IH]; intros off; [reflexivity|]. cbn [block_axes concat].
  now rewrite IH, app_length, seq_app.
Qed.
Lemma block_perm_perm (shapes : list shape) np : Permutation np (seq 0 (length shapes)) ->
  Permutation (block_perm shapes np) (seq 0 (length (concat shapes))).
Proof.
  intros P. unfold block_perm. rewrite <- concat_block_axes. apply Permutation_concat.
  transitivity (map (fun i => nth i (block_axes 0 shapes) []) (seq 0 (length shapes))).
  - now apply Permutation_map.
  - rewrite <- (block_axes_length 0 shapes), map_nth_seq. reflexivity.
Qed.

Lemma pos_nth perm p l : In p perm -> nth (pos p perm) (map l perm) 0 = l p.
Proof.
  induction perm as [|q r IH]; [easy|]. intros H. cbn [pos]. destruct (Nat.eqb_spec p q) as [->|N]; [reflexivity|].
  cbn [map nth]. apply IH. destruct H; [congruence|assumption].
Qed.

Section P.
Context {F : fops} (LF : flaws F).
Add Ring FRing : (F_R (fl_field _ LF)).

Lemma np_transpose_spec (a : nd F) perm : Permutation perm (seq 0 (length (nshape a))) ->
  exists t, np_transpose a perm = Ok t /\ nshape t = map (fun p => nth p (nshape a) 0) perm /\
    forall l, length l = length (nshape a) -> nat_ t (map (fun p => nth p l 0) perm) = nat_ a l.
Proof.
  intros P. pose proof (Permutation_length P) as L. rewrite seq_length in L.
  unfold np_transpose. rewrite L, Nat.eqb_refl. cbn [andb].
  assert (E : forallb (fun ax => existsb (Nat.eqb ax) perm) (seq 0 (length (nshape a))) = true).
  { apply forallb_forall. intros ax H. apply existsb_exists. exists ax. split; [|apply Nat.eqb_refl].
    now apply (Permutation_in ax (Permutation_sym P)). }
  rewrite E. eexists. split; [reflexivity|]. split; [reflexivity|]. intros l Hl. cbn [nat_]. f_equal.
  transitivity (map (fun i => nth i l 0) (seq 0 (length l))); [|apply map_nth_seq]. rewrite Hl. cbn [nshape]. rewrite ?L. apply map_ext_in. intros ax H.
  apply (pos_nth perm ax (fun p => nth p l 0)). now apply (Permutation_in ax (Permutation_sym P)).
Qed.
Lemma transpose_blocks (a : nd F) shapes np : nshape a = concat shapes -> Permutation np (seq 0 (length shapes)) ->
  exists t, np_transpose a (block_perm shapes np) = Ok t /\
    nshape t = concat (map (fun i => nth i shapes []) np) /\
    forall ls, Forall2 (fun (s l : list nat) => length s = length l) shapes ls ->
      nat_ t (concat (map (fun i => nth i ls []) np)) = nat_ a (concat ls).
Proof.
  intros E P. destruct (np_transpose_spec a (block_perm shapes np)) as [t [Et [St Vt]]].
  { rewrite E. now apply block_perm_perm. }
  exists t. split; [exact Et|]. split.
  - rewrite St, E. apply block_perm_pick. clear. induction shapes; constructor; auto.
  - intros ls H. rewrite <- (block_perm_pick shapes ls np H). apply Vt. rewrite E.
    clear - H. induction H as [|s l ss ls E H IH]; [reflexivity|]. cbn. rewrite !app_length, IH, E. reflexivity.
Qed.

Lemma filter_out (src : list nat) off n m : src = seq off n -> off + n <= m ->
  filter (fun ax => negb (existsb (Nat.eqb ax) src)) (seq 0 m) = seq 0 off ++ seq (off + n) (m - (off + n)).
Proof.
  intros -> H. replace m with (off + (n + (m - (off + n)))) at 1 by lia. rewrite !seq_app, !filter_app. cbn [Nat.add].
  assert (K : forall a k (keep : bool), (forall x, In x (seq a k) -> existsb (Nat.eqb x) (seq off n) = negb keep) ->
    filter (fun ax => negb (existsb (Nat.eqb ax) (seq off n))) (seq a k) = if keep then seq a k else []).
  { intros a k keep Hk. induction k as [|k IH] in a, Hk |- *; [now destruct keep|]. cbn [seq filter].
    rewrite (Hk a) by (left; reflexivity). rewrite negb_involutive, IH by (intros; apply Hk; now right).
    destruct keep; reflexivity. }
  assert (O : forall x, (x < off \/ off + n <= x) -> existsb (Nat.eqb x) (seq off n) = false).
  { intros x Hx. destruct (existsb (Nat.eqb x) (seq off n)) eqn:E; [|reflexivity].
    apply existsb_exists in E as [y [Hy Ey]]. apply Nat.eqb_eq in Ey. apply in_seq in Hy. lia. }
  rewrite (K 0 off true), (K off n false), (K (off + n) _ true); [reflexivity| | |].
  - intros x Hx. apply in_seq in Hx. cbn. apply O. lia.
  - intros x Hx. cbn. apply existsb_exists. exists x. split; [assumption|apply Nat.eqb_refl].
  - intros x Hx. apply in_seq in Hx. cbn. apply O. lia.
Qed.
(** Moving the block [t] of axes to the front. *)
Lemma to_front (a : nd F) s t u : nshape a = s ++ t ++ u ->
  exists r, np_to_front a (seq (length s) (length t)) = Ok r /\ nshape r = t ++ s ++ u /\
    forall i j k, length i = length s -> length j = length t -> length k = length u ->
      nat_ r (j ++ i ++ k) = nat_ a (i ++ j ++ k).
Proof.
  intros E. unfold np_to_front. rewrite (filter_out _ (length s) (length t) (length (nshape a)) eq_refl).
  2: { rewrite E, !app_length. lia. }
  replace (length (nshape a) - (length s + length t)) with (length u) by (rewrite E, !app_length; lia).
  replace (seq (length s) (length t) ++ seq 0 (length s) ++ seq (length s + length t) (length u))
    with (block_perm [s; t; u] [1; 0; 2]) by (unfold block_perm; cbn; now rewrite app_nil_r).
  destruct (transpose_blocks a [s; t; u] [1; 0; 2]) as [r [Er [Sr Vr]]].
  - cbn. now rewrite app_nil_r.
  - cbn. apply perm_swap.
  - exists r. split; [exact Er|]. split; [cbn in Sr; now rewrite app_nil_r in Sr|].
    intros i j k Hi Hj Hk. specialize (Vr [i; j; k]). cbn in Vr. rewrite !app_nil_r in Vr. apply Vr.
    repeat constructor; congruence.
Qed.

(** ** Batches *)
Lemma firstn_app_l {A} (l m : list A) n : length l = n -> firstn n (l ++ m) = l.
Proof. intros <-. rewrite firstn_app, Nat.sub_diag, firstn_all. cbn. apply app_nil_r. Qed.
Lemma skipn_app_l {A} (l m : list A) n : length l = n -> skipn n (l ++ m) = m.
Proof. intros <-. rewrite skipn_app, Nat.sub_diag, skipn_all. reflexivity. Qed.
Lemma batch_shape_ok (x : nd F) b insh : nshape x = b ++ insh -> batch_shape insh x = Ok b.
Proof.
  intros E. unfold batch_shape. rewrite E, app_length. replace (length b + length insh - length insh) with (length b) by lia.
  rewrite skipn_app_l, firstn_app_l by reflexivity. now rewrite shape_eqb_refl.
Qed.
Lemma batch_shape_inv (x : nd F) b insh : batch_shape insh x = Ok b -> nshape x = b ++ insh.
Proof.
  unfold batch_shape. destruct (shape_eqb_spec (skipn (length (nshape x) - length insh) (nshape x)) insh) as [E|]; [|discriminate].
  intros [= <-]. transitivity (firstn (length (nshape x) - length insh) (nshape x) ++ skipn (length (nshape x) - length insh) (nshape x)); [symmetry; apply firstn_skipn|now rewrite E].
Qed.
Lemma batch_shape_err (x : nd F) insh : (forall b, nshape x <> b ++ insh) -> batch_shape insh x = Err ValueError.
Proof.
  intros H. unfold batch_shape. destruct (shape_eqb_spec (skipn (length (nshape x) - length insh) (nshape x)) insh) as [E|]; [|reflexivity].
  destruct (H (firstn (length (nshape x) - length insh) (nshape x))). transitivity (firstn (length (nshape x) - length insh) (nshape x) ++ skipn (length (nshape x) - length insh) (nshape x)); [symmetry; apply firstn_skipn|now rewrite E].
Qed.

(** ** Broadcasting of the two batches of an evaluation functional *)
Lemma broadcast_rev_ones a : forall m, broadcast_rev (repeat 1 (length a) ++ m) a = Ok (a ++ m).
Proof.
  induction a as [|x a IH]; intros m; cbn.
  - now destruct m.
  - destruct x as [|[|x]]; cbn [Nat.eqb]; rewrite IH; reflexivity.
Qed.
Lemma broadcast_rev_ones_r a : forall m, broadcast_rev a (repeat 1 (length a) ++ m) = Ok (a ++ m).
Proof.
  induction a as [|x a IH]; intros m; cbn; [reflexivity|].
  destruct x as [|[|x]]; cbn [Nat.eqb]; rewrite IH; reflexivity.
Qed.
Lemma broadcast_expand_l b c : broadcast_shapes (b ++ repeat 1 (length c)) c = Ok (b ++ c).
Proof.
  unfold broadcast_shapes. rewrite rev_app_distr.
  replace (rev (repeat 1 (length c))) with (repeat 1 (length (rev c))).
  2: { rewrite rev_length. clear. induction (length c) as [|n IH]; [reflexivity|]. cbn. rewrite <- IH.
       clear. induction n; cbn; congruence. }
  rewrite broadcast_rev_ones. cbn. now rewrite rev_app_distr, !rev_involutive.
Qed.
Lemma broadcast_expand_r b c : broadcast_shapes c (b ++ repeat 1 (length c)) = Ok (b ++ c).
Proof.
  unfold broadcast_shapes. rewrite rev_app_distr.
  replace (rev (repeat 1 (length c))) with (repeat 1 (length (rev c))).
  2: { rewrite rev_length. clear. induction (length c) as [|n IH]; [reflexivity|]. cbn. rewrite <- IH.
       clear. induction n; cbn; congruence. }
  rewrite broadcast_rev_ones_r. cbn. now rewrite rev_app_distr, !rev_involutive.
Qed.
Lemma operand_index_last (b c : shape) (i j : index) : length i = length b -> valid_index c j -> operand_index c (i ++ j) = j.
Proof.
  intros Hi Hj. unfold operand_index. rewrite app_length, (valid_index_length _ _ Hj).
  replace (length i + length c - length c) with (length i) by lia. rewrite skipn_app_l by reflexivity.
  pose proof (operand_index_id _ _ Hj) as E. unfold operand_index in E.
  rewrite (valid_index_length _ _ Hj), Nat.sub_diag in E. exact E.
Qed.
Lemma operand_index_ones (b c : shape) (i j : index) : valid_index b i -> length j = length c ->
  operand_index (b ++ repeat 1 (length c)) (i ++ j) = i ++ repeat 0 (length c).
Proof.
  intros Hi Hj. unfold operand_index. rewrite !app_length, repeat_length, Hj, (valid_index_length _ _ Hi), Nat.sub_diag. cbn [skipn].
  induction Hi as [|k d i b L Hi IH]; cbn.
  - rewrite <- Hj. clear. induction j as [|x j IH]; [reflexivity|]. cbn. now rewrite IH.
  - rewrite IH. destruct (Nat.eqb_spec d 1); f_equal. lia.
Qed.
Lemma pt_expand (x : nd F) (b : shape) n (i : index) : length i = length b ->
  pt (np_expand x (length b) n) (i ++ repeat 0 n) = pt x i.
Proof.
  intros Hi. apply functional_extensionality. intros j. unfold pt, np_expand. cbn [nat_]. f_equal.
  rewrite <- app_assoc, firstn_app_l by assumption. f_equal.
  rewrite app_assoc, skipn_app_l; [reflexivity|]. rewrite app_length, repeat_length. lia.
Qed.
Lemma np_expand_shape (x : nd F) (b : shape) n insh : nshape x = b ++ insh -> nshape (np_expand x (length b) n) = (b ++ repeat 1 n) ++ insh.
Proof. intros E. cbn. rewrite E, firstn_app_l, skipn_app_l by reflexivity. now rewrite app_assoc. Qed.

(** ** [mapR] *)
Lemma mapR_ok {A B} (f : A -> result B) (P : A -> B -> Prop) l : (forall x, In x l -> exists y, f x = Ok y /\ P x y) ->
  exists ys, mapR f l = Ok ys /\ Forall2 P l ys.
Proof.
  induction l as [|x l IH]; intros H; cbn; [eauto|]. destruct (H x (or_introl eq_refl)) as [y [-> Py]]. cbn.
  destruct IH as [ys [-> Pys]]; [intros; apply H; now right|]. cbn. eauto.
Qed.
Lemma mapR_err {A B} (f : A -> result B) l e : (forall x, In x l -> (exists y, f x = Ok y) \/ f x = Err e) ->
  (exists ys, mapR f l = Ok ys /\ Forall2 (fun x y => f x = Ok y) l ys) \/ mapR f l = Err e.
Proof.
  induction l as [|x l IH]; intros H; cbn; [left; eauto|]. destruct (H x (or_introl eq_refl)) as [[y E]|E]; rewrite E; cbn; [|now right].
  destruct IH as [[ys [-> Pys]]| ->]; [intros; apply H; now right| |now right]. cbn. left. eauto.
Qed.

(** ** Linear operators along one axis *)
Lemma lin_axis_ok (A : mat F) (a : nd F) s d t : nshape a = s ++ d :: t -> d = ncols A ->
  exists r, lin_axis A a (length s) = Ok r /\ nshape r = s ++ nrows A :: t /\
    forall i m j, length i = length s -> length j = length t ->
      nat_ r (i ++ m :: j) = fsum (map (fun k => fmul (entry A m k) (nat_ a (i ++ k :: j))) (seq 0 (ncols A))).
Proof.
  intros E ->. unfold lin_axis. rewrite E.
  assert (L : length s <? length (s ++ ncols A :: t) = true) by (apply Nat.ltb_lt; rewrite app_length; cbn; lia).
  rewrite L, app_nth2, Nat.sub_diag by lia. cbn [nth]. rewrite Nat.eqb_refl. cbn [andb].
  eexists. split; [reflexivity|]. cbn [nshape nat_]. split.
  - rewrite firstn_app_l by reflexivity. f_equal. f_equal.
    change (s ++ ncols A :: t) with (s ++ [ncols A] ++ t). rewrite app_assoc. apply skipn_app_l. rewrite app_length. cbn. lia.
  - intros i m j Hi Hj. f_equal. apply map_ext. intros k. rewrite app_nth2, Hi, Nat.sub_diag by lia. cbn [nth]. f_equal. f_equal.
    rewrite firstn_app_l by assumption. f_equal. f_equal.
    change (i ++ m :: j) with (i ++ [m] ++ j). rewrite app_assoc. apply skipn_app_l. rewrite app_length. cbn. lia.
Qed.
End P.
