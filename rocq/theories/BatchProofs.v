(** Lemmas about the array evaluation of covariance functions. *)
From Coq Require Import List Reals Bool Arith ZArith Lia.
From Verif Require Import Base NdArray NdData PolyModel PolyClassModel BlockModel CovModel CrossModel CrossProofs CrossKern ShapedModel ShapedProofs DtypeModel DtypeProps
  PolyCalc FunExprModel DiffopModel LfoModel KernelModel BatchModel.
Import ListNotations.
Open Scope R_scope.

(** ** Broadcasting *)
Lemma broadcast_app s a b c : broadcast_shapes a b = Ok c -> broadcast_shapes (a ++ s) (b ++ s) = Ok (c ++ s).
Proof.
  unfold broadcast_shapes. intros H. rewrite !rev_app_distr.
  destruct (broadcast_rev (rev a) (rev b)) as [r|] eqn:E; [|discriminate]. cbn [bind] in H. injection H as <-.
  assert (Q : forall t, broadcast_rev (t ++ rev a) (t ++ rev b) = Ok (t ++ r)).
  { induction t as [|d t IH]; [exact E|]. cbn [app broadcast_rev]. now rewrite Nat.eqb_refl, IH. }
  rewrite Q. cbn [bind]. now rewrite rev_app_distr, rev_involutive.
Qed.
Lemma combine_app {A B} (a b : list A) (c d : list B) : length a = length c -> combine (a ++ b) (c ++ d) = combine a c ++ combine b d.
Proof. revert c. induction a as [|x a IH]; intros [|y c] H; try discriminate; [reflexivity|]. cbn. f_equal. apply IH. now injection H. Qed.
Lemma operand_app b0 b s i j : (length b0 <= length b)%nat -> valid_index b i -> valid_index s j ->
  operand_index (b0 ++ s) (i ++ j) = operand_index b0 i ++ j.
Proof.
  intros L Hi Hj. pose proof (valid_index_length _ _ Hi) as Li. pose proof (valid_index_length _ _ Hj) as Lj.
  unfold operand_index. rewrite !app_length, skipn_app.
  replace (length i + length j - (length b0 + length s))%nat with (length i - length b0)%nat by lia.
  replace (length i - length b0 - length i)%nat with 0%nat by lia. cbn [skipn].
  rewrite combine_app by (rewrite skipn_length; lia). rewrite map_app. f_equal.
  clear Li Lj Hi. induction Hj as [|k d j s' Hk Hj IH]; [reflexivity|]. cbn. rewrite IH. f_equal.
  destruct (Nat.eqb_spec d 1); [lia|reflexivity].
Qed.

(** ** Values along a batch *)
(** The shapes an intermediate array can have: none, that of a point, that of all points. *)
Inductive kind := K0 | Ks | Kb.
Definition kshape (k : kind) (b s : shape) : shape := match k with K0 => [] | Ks => s | Kb => b ++ s end.
Definition kindex (k : kind) (i j : index) : index := match k with K0 => [] | Ks => j | Kb => i ++ j end.
Definition kmax (k k' : kind) : kind := match k, k' with Kb, _ | _, Kb => Kb | Ks, _ | _, Ks => Ks | _, _ => K0 end.
(** The array [a], of integers if [z], holds [g i j] for the coordinate [j] of the point [i]. *)
Definition holdsd (z : bool) (k : kind) (b s : shape) (a : tnd) (g : index -> index -> R) : Prop :=
  t_int a = z /\ t_shape a = kshape k b s /\
  forall i j, valid_index b i -> valid_index s j -> nat_ (t_arr a) (kindex k i j) = g i j.
Notation holds := (holdsd false).

Lemma kindex_valid k b s i j : valid_index b i -> valid_index s j -> valid_index (kshape k b s) (kindex k i j).
Proof. intros Hi Hj. destruct k; cbn; [constructor|exact Hj|now apply valid_index_app]. Qed.
Lemma broadcast_nil_r s : broadcast_shapes s [] = Ok s.
Proof. pose proof (broadcast_trailing s []) as H. now rewrite app_nil_r in H. Qed.
Lemma broadcast_leading b s : broadcast_shapes s (b ++ s) = Ok (b ++ s).
Proof.
  unfold broadcast_shapes. rewrite rev_app_distr.
  assert (Q : forall t u, broadcast_rev t (t ++ u) = Ok (t ++ u)).
  { induction t as [|d t IH]; intros u; [reflexivity|]. cbn. now rewrite Nat.eqb_refl, IH. }
  rewrite Q. cbn [bind]. now rewrite rev_app_distr, !rev_involutive.
Qed.
Lemma kbroadcast k k' b s : broadcast_shapes (kshape k b s) (kshape k' b s) = Ok (kshape (kmax k k') b s).
Proof.
  destruct k, k'; cbn [kshape kmax]; rewrite ?broadcast_scalar_l, ?broadcast_nil_r, ?broadcast_same, ?broadcast_trailing, ?broadcast_leading; reflexivity.
Qed.
Lemma koperand k k' b s i j : valid_index b i -> valid_index s j -> kmax k k' = k' ->
  operand_index (kshape k b s) (kindex k' i j) = kindex k i j.
Proof.
  intros Hi Hj M. destruct k, k'; try discriminate; cbn [kshape kindex]; try reflexivity.
  - now apply operand_index_id.
  - now apply operand_trailing.
  - apply operand_index_id. now apply valid_index_app.
Qed.
Lemma kmax_l k k' : kmax k (kmax k k') = kmax k k'. Proof. now destruct k, k'. Qed.
Lemma kmax_r k k' : kmax k' (kmax k k') = kmax k k'. Proof. now destruct k, k'. Qed.

Lemma nd_bin_holds op z z' k k' b s a a' g g' : holdsd z k b s a g -> holdsd z' k' b s a' g' ->
  exists c, nd_bin (F := RF) op (t_arr a) (t_arr a') = Ok c /\ forall z'', holdsd z'' (kmax k k') b s (T z'' c) (fun i j => op (g i j) (g' i j)).
Proof.
  intros (I & S & V) (I' & S' & V'). unfold nd_bin. unfold t_shape in S, S'. rewrite S, S', kbroadcast. cbn [bind].
  eexists. split; [reflexivity|]. intros z''. split; [reflexivity|]. split; [reflexivity|]. intros i j Hi Hj. cbn [t_arr nat_].
  rewrite !koperand by (auto using kmax_l, kmax_r). now rewrite V, V'.
Qed.
Lemma tbin_holds op z z' k k' b s a a' g g' : holdsd z k b s a g -> holdsd z' k' b s a' g' ->
  exists c, tbin op a a' = Ok c /\ holdsd (z && z') (kmax k k') b s c (fun i j => op (g i j) (g' i j)).
Proof.
  intros H H'. destruct (nd_bin_holds op _ _ _ _ _ _ _ _ _ _ H H') as (c & E & C). unfold tbin. rewrite E. cbn [bind].
  destruct H as (-> & _), H' as (-> & _). eauto.
Qed.
Lemma tdiv_holds z z' k k' b s a a' g g' : holdsd z k b s a g -> holdsd z' k' b s a' g' ->
  exists c, tdiv a a' = Ok c /\ holds (kmax k k') b s c (fun i j => g i j / g' i j).
Proof. intros H H'. destruct (nd_bin_holds Rdiv _ _ _ _ _ _ _ _ _ _ H H') as (c & E & C). unfold tdiv. rewrite E. cbn [bind]. eauto. Qed.
Lemma inplace_holds m op z z' k k' b s a a' g g' : holdsd z k b s a g -> holdsd z' k' b s a' g' -> kmax k k' = k ->
  m = Jax \/ z = false \/ kshape k b s = [] ->
  exists c, inplace m op a a' = Ok c /\ holdsd (z && z') k b s c (fun i j => op (g i j) (g' i j)).
Proof.
  intros H H' M N. unfold inplace.
  assert (J : exists c, tbin op a a' = Ok c /\ holdsd (z && z') k b s c (fun i j => op (g i j) (g' i j))).
  { destruct (tbin_holds op _ _ _ _ _ _ _ _ _ _ H H') as (c & E & C). rewrite M in C. eauto. }
  destruct m; [|exact J]. destruct (t_shape a) as [|n l] eqn:Q; [exact J|].
  destruct N as [N|[->|N]]; [discriminate| |exfalso; destruct H as (_ & S & _); congruence].
  destruct (nd_bin_holds op _ _ _ _ _ _ _ _ _ _ H H') as (c & E & C). rewrite M in C. pose proof H as (I & S & _). rewrite I. cbn [andb].
  rewrite E. cbn [bind]. rewrite <- Q. destruct (C false) as (_ & SC & VC). unfold t_shape in SC at 1. cbn [t_arr] in SC. rewrite SC, S, shape_eqb_refl.
  eexists. split; [reflexivity|]. now repeat split.
Qed.
Lemma tneg_holds z k b s a g : holdsd z k b s a g -> holdsd z k b s (tneg a) (fun i j => - g i j).
Proof. intros (I & S & V). repeat split; [exact I|exact S|]. intros i j Hi Hj. cbn. now rewrite V. Qed.
Lemma tpow_holds n z k b s a g : holdsd z k b s a g -> holdsd z k b s (tpow a n) (fun i j => g i j ^ n).
Proof. intros (I & S & V). repeat split; [exact I|exact S|]. intros i j Hi Hj. cbn. now rewrite V. Qed.
Lemma tfun_holds f z k b s a g : holdsd z k b s a g -> holds k b s (tfun f a) (fun i j => f (g i j)).
Proof. intros (I & S & V). repeat split; [exact S|]. intros i j Hi Hj. cbn. now rewrite V. Qed.
Lemma num_holds r b s : holds K0 b s (num r) (fun _ _ => r).
Proof. repeat split. Qed.
Lemma tarr_holds v b s : holds Ks b s (tarr s v) (fun _ j => v j).
Proof. repeat split. Qed.
(** A number given for all lengthscales is their common value. *)
Definition lens_ok (sc : bool) (s : shape) (len : array) : Prop := sc = true -> forall j, valid_index s j -> len j = len [].
Definition klen (sc : bool) : kind := if sc then K0 else Ks.
Lemma tlen_holds sc len b s : lens_ok sc s len -> holds (klen sc) b s (tlen sc s len) (fun _ j => len j).
Proof. intros L. repeat split; [now destruct sc|]. intros i j Hi Hj. destruct sc; cbn; [|reflexivity]. symmetry. now apply L. Qed.
Lemma holds_ext z k b s a g g' : holdsd z k b s a g -> (forall i j, valid_index b i -> valid_index s j -> g i j = g' i j) -> holdsd z k b s a g'.
Proof. intros (I & S & V) E. repeat split; [exact I|exact S|]. intros i j Hi Hj. now rewrite V, E. Qed.
Lemma sum_ext {A} (f g : A -> R) l : (forall x, In x l -> f x = g x) -> rsum (map f l) = rsum (map g l).
Proof. intros H. f_equal. now apply map_ext_in. Qed.

Lemma last_axes {A} (b s : list A) : (length (b ++ s) - length s)%nat = length b.
Proof. rewrite app_length. lia. Qed.
Lemma tsum_last_batch b s a g : holds Kb b s a g ->
  exists c, tsum_last (length s) a = Ok c /\ holds Kb b [] c (fun i _ => bsum s (g i)).
Proof.
  intros (I & S & V). unfold tsum_last. rewrite S. cbn [kshape]. rewrite last_axes.
  replace (length (b ++ s) <? length s)%nat with false by (symmetry; apply Nat.ltb_ge; rewrite app_length; lia).
  eexists. split; [reflexivity|]. split; [exact I|]. rewrite firstn_app_l, skipn_app_l by reflexivity. split; [cbn; now rewrite app_nil_r|].
  intros i j Hi Hj. apply valid_index_nil in Hj as ->. cbn [kindex t_arr nat_]. rewrite app_nil_r. unfold bsum. apply sum_ext.
  intros x Hx. apply all_indices_spec in Hx. exact (V i x Hi Hx).
Qed.
(** Arrays that do not depend on the points: sums over all entries are numbers. *)
Lemma tsum_holds s a (g : array) : holds Ks [] s a (fun _ j => g j) -> forall b s', holds K0 b s' (tsum a) (fun _ _ => bsum s g).
Proof.
  intros (I & S & V) b s'. repeat split; [exact I|]. intros i j _ _. cbn. rewrite S. unfold bsum. apply sum_ext.
  intros x Hx. apply all_indices_spec in Hx. exact (V [] x (Forall2_nil _) Hx).
Qed.
Lemma tsum_last_point s a (g : array) : holds Ks [] s a (fun _ j => g j) ->
  exists c, tsum_last (length s) a = Ok c /\ nat_ (t_arr c) [] = bsum s g /\ forall b s', holds K0 b s' c (fun _ _ => bsum s g).
Proof.
  intros (I & S & V). unfold tsum_last. rewrite S. cbn [kshape]. rewrite Nat.sub_diag, Nat.ltb_irrefl. cbn [firstn skipn].
  assert (E : rsum (map (fun j => nat_ (t_arr a) ([] ++ j)) (all_indices s)) = bsum s g).
  { unfold bsum. apply sum_ext. intros x Hx. apply all_indices_spec in Hx. exact (V [] x (Forall2_nil _) Hx). }
  eexists. split; [reflexivity|]. split; [exact E|]. intros b s'. repeat split; [exact I|]. intros i j _ _. exact E.
Qed.
Lemma tsqueeze_holds s a (g : array) : size s = 1%nat -> holds Ks [] s a (fun _ j => g j) ->
  exists c, tsqueeze a = Ok c /\ nat_ (t_arr c) [] = squeeze s g /\ forall b s', holds K0 b s' c (fun _ _ => squeeze s g).
Proof.
  intros Z (I & S & V). unfold tsqueeze, squeeze. rewrite S. cbn [kshape].
  pose proof (f_equal (@length nat) (ravel_all s)) as L. rewrite map_length, seq_length, Z in L.
  destruct (all_indices s) as [|x [|y l]] eqn:E; try discriminate.
  assert (Hx : valid_index s x) by (apply all_indices_spec; rewrite E; now left).
  eexists. split; [reflexivity|]. split; [exact (V [] x (Forall2_nil _) Hx)|]. intros b s'. repeat split; [exact I|].
  intros i j _ _. exact (V [] x (Forall2_nil _) Hx).
Qed.
(** Constants hold for every batch. *)
Lemma holds_any k s a (g : array) : k <> Kb -> holds k [] s a (fun _ j => g j) -> forall b, holds k b s a (fun _ j => g j).
Proof.
  intros N (I & S & V) b. repeat split; [exact I|destruct k; [exact S|exact S|congruence]|]. intros i j Hi Hj.
  pose proof (V [] j (Forall2_nil _) Hj) as E. destruct k; [exact E|exact E|congruence].
Qed.

Lemma poly_holds m p b a g : py_valid p -> holds Kb b [] a g -> exists c, poly_call m p a = Ok c /\ holds Kb b [] c (fun i j => py_eval p (g i j)).
Proof.
  intros P (I & S & V). cbn [kshape] in S. rewrite app_nil_r in S. unfold poly_call, to_darr. rewrite I, S.
  assert (E : (match m with NumPy => np_poly p (AF (map (nat_ (t_arr a)) (all_indices b))) | Jax => jax_poly p (AF (map (nat_ (t_arr a)) (all_indices b))) end)
              = Ok (AF (map (py_eval p) (map (nat_ (t_arr a)) (all_indices b))))).
  { destruct m; [now apply np_poly_float|now apply C50_jax_floats]. }
  rewrite E. cbn [bind]. eexists. split; [reflexivity|]. split; [reflexivity|]. split; [cbn; now rewrite app_nil_r|].
  intros i j Hi Hj. apply valid_index_nil in Hj as ->. cbn [kindex of_darr t_arr nat_ floats]. rewrite app_nil_r.
  pose proof (V i [] Hi (Forall2_nil _)) as Q. cbn [kindex] in Q. rewrite app_nil_r in Q. rewrite <- Q.
  set (f := fun i => py_eval p (nat_ (t_arr a) i)).
  rewrite map_map. change (nth (ravel b i) (map f (all_indices b)) 0 = f i).
  rewrite (nth_indep _ 0 (f [])) by (rewrite map_length, <- (map_length (ravel b)), ravel_all, seq_length; now apply ravel_lt).
  rewrite map_nth. f_equal. apply (ravel_inj b); [|exact Hi|].
  - apply all_indices_spec, nth_In. rewrite <- (map_length (ravel b)), ravel_all, seq_length. now apply ravel_lt.
  - rewrite <- (map_nth (ravel b)), ravel_all, (nth_indep _ _ 0%nat) by (rewrite seq_length; now apply ravel_lt). rewrite seq_nth by now apply ravel_lt. reflexivity.
Qed.

(** The differences between the points. *)
Lemma diffs_holds x0 y b0 b1 b s : t_shape x0 = b0 ++ s -> t_shape y = b1 ++ s -> broadcast_shapes b0 b1 = Ok b ->
  exists c, tbin Rminus x0 y = Ok c /\ holdsd (t_int x0 && t_int y) Kb b s c (fun i j => vdiff (pt (F := RF) (t_arr x0) (operand_index b0 i)) (pt (F := RF) (t_arr y) (operand_index b1 i)) j).
Proof.
  intros S0 S1 B. unfold tbin, nd_bin. unfold t_shape in S0, S1. rewrite S0, S1, (broadcast_app _ _ _ _ B). cbn [bind].
  eexists. split; [reflexivity|]. split; [reflexivity|]. split; [reflexivity|]. intros i j Hi Hj. cbn [kindex t_arr nat_].
  pose proof (broadcast_rank _ _ _ B). rewrite !(operand_app _ b) by (auto; lia). reflexivity.
Qed.
Lemma like_holds b s x0 r : t_int x0 = false -> t_shape x0 = b ++ s -> holds Kb b [] (like (length s) x0 r) (fun _ _ => r).
Proof.
  intros I S. unfold like. rewrite S, I, last_axes, firstn_app_l by reflexivity. repeat split. cbn. now rewrite app_nil_r.
Qed.
