(** Proofs about truncated Gaussian mixtures. *)
From Coq Require Import List Arith ZArith Reals Lra Lia.
From Coquelicot Require Import Coquelicot.
From Verif Require Import Base NdArray NdData CrossModel ShapedModel ShapedProofs MixtureModel MixtureSpec.
Import ListNotations.
Local Open Scope R_scope.

(** ** The normal distribution *)
Lemma std_density_pos t : 0 < std_density t.
Proof.
  unfold std_density. apply Rmult_lt_0_compat; [|apply exp_pos]. apply Rinv_0_lt_compat, sqrt_lt_R0.
  pose proof PI_RGT_0. lra.
Qed.
Lemma std_density_cont t : continuous std_density t.
Proof.
  apply (ex_derive_continuous std_density). unfold std_density. auto_derive. exact I.
Qed.
Lemma cdf_derive x : is_derive norm_cdf x (std_density x).
Proof.
  unfold norm_cdf. evar_last.
  - apply (@is_derive_plus R_AbsRing R_NormedModule); [apply is_derive_const|]. apply is_derive_RInt with (a := 0).
    + apply filter_forall. intros y. apply (RInt_correct (V := R_CompleteNormedModule)). apply ex_RInt_continuous. intros; apply std_density_cont.
    + apply std_density_cont.
  - apply plus_zero_l.
Qed.
(** A component as the code computes it. *)
Definition component (mu sigma t : R) : R := 1 / (sqrt (2 * PI) * sigma) * exp (- (1 / 2) * ((t - mu) / sigma) ^ 2).
Definition mass (lo hi mu sigma : R) : R := norm_cdf ((hi - mu) / sigma) - norm_cdf ((lo - mu) / sigma).
Lemma sqrt2pi : 0 < sqrt (2 * PI).
Proof. apply sqrt_lt_R0. pose proof PI_RGT_0. lra. Qed.
Lemma component_std mu sigma t : sigma <> 0 -> component mu sigma t = / sigma * std_density ((t - mu) / sigma).
Proof.
  intros H. unfold component, std_density. pose proof sqrt2pi.
  replace (- ((t - mu) / sigma) ^ 2 / 2) with (- (1 / 2) * ((t - mu) / sigma) ^ 2) by (field; exact H).
  field. split; [lra|exact H].
Qed.
Lemma normal_cont mu sigma t : sigma <> 0 -> continuous (normal_density mu sigma) t.
Proof.
  intros _. apply (ex_derive_continuous (normal_density mu sigma)). unfold normal_density. auto_derive. exact I.
Qed.
Lemma normal_pos mu sigma t : sigma <> 0 -> 0 < normal_density mu sigma t.
Proof.
  intros H. unfold normal_density. apply Rdiv_lt_0_compat; [apply exp_pos|]. apply sqrt_lt_R0. pose proof PI_RGT_0. pose proof (pow2_gt_0 sigma H). nra.
Qed.
Lemma component_normal mu sigma t : sigma <> 0 -> component mu sigma t = (Rabs sigma / sigma) * normal_density mu sigma t.
Proof.
  intros H. unfold component, normal_density. pose proof sqrt2pi. pose proof PI_RGT_0.
  rewrite (sqrt_mult (2 * PI) (sigma ^ 2)) by (try apply pow2_ge_0; lra). replace (sqrt (sigma ^ 2)) with (Rabs sigma) by (rewrite <- Rsqr_pow2; symmetry; apply sqrt_Rsqr_abs).
  replace (- (t - mu) ^ 2 / (2 * sigma ^ 2)) with (- (1 / 2) * ((t - mu) / sigma) ^ 2) by (field; exact H).
  field. repeat split; try exact H; try lra; now apply Rabs_no_R0.
Qed.
Lemma normal_RInt mu sigma lo hi : sigma <> 0 -> is_RInt (normal_density mu sigma) lo hi (RInt (normal_density mu sigma) lo hi).
Proof. intros H. apply (RInt_correct (V := R_CompleteNormedModule)). apply ex_RInt_continuous. intros; now apply normal_cont. Qed.
Lemma mass_RInt lo hi mu sigma : sigma <> 0 -> mass lo hi mu sigma = (Rabs sigma / sigma) * RInt (normal_density mu sigma) lo hi.
Proof.
  intros H.
  assert (I1 : is_RInt (component mu sigma) lo hi (mass lo hi mu sigma)).
  { unfold mass. apply (is_RInt_derive (fun t => norm_cdf ((t - mu) / sigma)) (component mu sigma)).
    - intros t _. rewrite component_std by exact H. evar_last.
      + apply (is_derive_comp norm_cdf (fun t => (t - mu) / sigma)); [apply cdf_derive|]. auto_derive; [exact I|]. reflexivity.
      + unfold scal; cbn; unfold mult; cbn. unfold Rdiv. ring.
    - intros t _. apply continuous_ext with (fun s => (Rabs sigma / sigma) * normal_density mu sigma s).
      { intros s. symmetry. now apply component_normal. }
      apply (continuous_scal_r (K := R_AbsRing) (V := R_NormedModule) (Rabs sigma / sigma)). now apply normal_cont. }
  assert (I2 : is_RInt (component mu sigma) lo hi ((Rabs sigma / sigma) * RInt (normal_density mu sigma) lo hi)).
  { apply (is_RInt_ext (fun s => scal (Rabs sigma / sigma) (normal_density mu sigma s))).
    { intros s _. symmetry. now apply component_normal. }
    apply (is_RInt_scal (V := R_NormedModule)). now apply normal_RInt. }
  rewrite <- (is_RInt_unique _ _ _ _ I1). exact (is_RInt_unique _ _ _ _ I2).
Qed.
Lemma mass_pos lo hi mu sigma : sigma <> 0 -> lo < hi -> 0 < RInt (normal_density mu sigma) lo hi.
Proof.
  intros H L. apply RInt_gt_0; [exact L| |]; intros t _; [now apply normal_pos|now apply normal_cont].
Qed.
Lemma component_truncated lo hi mu sigma t : sigma <> 0 -> lo < hi ->
  component mu sigma t / mass lo hi mu sigma = truncated_density lo hi mu sigma t.
Proof.
  intros H L. rewrite component_normal, mass_RInt by exact H. unfold truncated_density. pose proof (mass_pos lo hi mu sigma H L).
  field. repeat split; try exact H; try lra; now apply Rabs_no_R0.
Qed.
Lemma truncated_pos lo hi mu sigma t : sigma <> 0 -> lo < hi -> 0 < truncated_density lo hi mu sigma t.
Proof. intros H L. apply Rdiv_lt_0_compat; [now apply normal_pos|now apply mass_pos]. Qed.
Lemma truncated_RInt lo hi mu sigma : sigma <> 0 -> lo < hi -> is_RInt (truncated_density lo hi mu sigma) lo hi 1.
Proof.
  intros H L. pose proof (mass_pos lo hi mu sigma H L) as P. pose proof (normal_RInt mu sigma lo hi H) as I.
  unfold truncated_density. set (M := RInt (normal_density mu sigma) lo hi) in *. clearbody M.
  apply (is_RInt_ext (fun s => scal (/ M) (normal_density mu sigma s))).
  { intros s _. change (/ M * normal_density mu sigma s = normal_density mu sigma s / M). field. lra. }
  evar_last; [apply (is_RInt_scal (V := R_NormedModule)); exact I|]. change (/ M * M = 1). field. lra.
Qed.
Lemma mixture_RInt lo hi n mu sigma : (0 < n)%nat -> lo < hi -> (forall k, (k < n)%nat -> sigma k <> 0) ->
  is_RInt (mixture_density lo hi n mu sigma) lo hi 1.
Proof.
  intros Hn L H. assert (Hk : forall k, In k (seq 0 n) -> sigma k <> 0) by (intros k Hk; apply in_seq in Hk; apply H; lia).
  assert (S1 : is_RInt (fun t => fold_right Rplus 0 (map (fun k => truncated_density lo hi (mu k) (sigma k) t) (seq 0 n))) lo hi (INR n)).
  { replace (INR n) with (INR (length (seq 0 n))) by now rewrite seq_length. revert Hk. generalize (seq 0 n) as l. induction l as [|k l IH]; intros Hk.
    - cbn. evar_last; [apply (is_RInt_const (V := R_NormedModule))|]. unfold scal; cbn; unfold mult; cbn. ring.
    - cbn [map fold_right length]. rewrite S_INR, Rplus_comm. apply (is_RInt_plus (V := R_NormedModule)).
      + apply truncated_RInt; [apply Hk; now left|exact L].
      + apply IH. intros; apply Hk; now right. }
  pose proof (lt_0_INR n Hn). unfold mixture_density.
  apply (is_RInt_ext (fun t => scal (/ INR n) (fold_right Rplus 0 (map (fun k => truncated_density lo hi (mu k) (sigma k) t) (seq 0 n))))).
  { intros s _. unfold scal; cbn; unfold mult; cbn. unfold Rdiv. ring. }
  evar_last; [apply (is_RInt_scal (V := R_NormedModule)); exact S1|]. unfold scal; cbn; unfold mult; cbn. field. lra.
Qed.
Lemma mixture_pos lo hi n mu sigma t : (0 < n)%nat -> lo < hi -> (forall k, (k < n)%nat -> sigma k <> 0) ->
  0 < mixture_density lo hi n mu sigma t.
Proof.
  intros Hn L H. unfold mixture_density. apply Rdiv_lt_0_compat; [|now apply lt_0_INR].
  assert (Hk : forall k, In k (seq 0 n) -> sigma k <> 0) by (intros k Hk; apply in_seq in Hk; apply H; lia).
  assert (N : seq 0 n <> []) by (destruct n; [lia|discriminate]). revert Hk N. generalize (seq 0 n) as l.
  induction l as [|k l IH]; intros Hk N; [congruence|]. cbn [map fold_right].
  pose proof (truncated_pos lo hi (mu k) (sigma k) t (Hk k (or_introl eq_refl)) L).
  destruct l as [|k' l]; [cbn; lra|]. assert (0 < fold_right Rplus 0 (map (fun k => truncated_density lo hi (mu k) (sigma k) t) (k' :: l))).
  { apply IH; [intros; apply Hk; now right|discriminate]. } lra.
Qed.

(** ** Broadcasting of rows *)
Local Open Scope nat_scope.
(** Arrays over a batch with a last axis of [n] components, any of them possibly missing. *)
Inductive lay := L0 | L1 (d : nat) | LB (d : nat).
Definition lshape (batch : shape) (l : lay) : shape := match l with L0 => [] | L1 d => [d] | LB d => batch ++ [d] end.
Definition ldim (l : lay) : nat := match l with L0 => 1 | L1 d | LB d => d end.
Definition lidx (b : index) (l : lay) (k : nat) : index :=
  match l with L0 => [] | L1 d => [if d =? 1 then 0 else k] | LB d => b ++ [if d =? 1 then 0 else k] end.
Definition ldim_ok (n : nat) (l : lay) : Prop := ldim l = 1 \/ ldim l = n.
Definition ljoin (l m : lay) : lay :=
  let d := if ldim l =? 1 then ldim m else ldim l in
  match l, m with L0, _ => m | _, L0 => l | L1 _, L1 _ => L1 d | _, _ => LB d end.
Lemma lshape_join batch n l m : ldim_ok n l -> ldim_ok n m -> broadcast_shapes (lshape batch l) (lshape batch m) = Ok (lshape batch (ljoin l m)).
Proof.
  unfold broadcast_shapes, ldim_ok. intros Hl Hm.
  assert (Hd : forall r d e, (d = 1 \/ d = n) -> (e = 1 \/ e = n) -> forall a b, broadcast_rev a b = Ok r ->
    broadcast_rev (d :: a) (e :: b) = Ok ((if d =? 1 then e else d) :: r)).
  { intros r d e Hd He a b E. cbn. rewrite E. cbn [bind]. destruct (Nat.eqb_spec d e) as [->|N]; [destruct (Nat.eqb_spec e 1); congruence|].
    destruct (Nat.eqb_spec d 1); [reflexivity|]. destruct (Nat.eqb_spec e 1); [reflexivity|]. exfalso. lia. }
  assert (Bn : forall s, broadcast_rev s [] = Ok s) by now intros [|].
  destruct l as [|d|d], m as [|e|e]; cbn [lshape ljoin ldim] in *; rewrite ?rev_app_distr; cbn [rev app].
  - reflexivity.
  - reflexivity.
  - cbn. now rewrite rev_involutive.
  - reflexivity.
  - rewrite (Hd [] d e Hl Hm [] [] eq_refl). reflexivity.
  - rewrite (Hd (rev batch) d e Hl Hm [] (rev batch) eq_refl). cbn. now rewrite rev_involutive.
  - rewrite (Bn (d :: rev batch)). cbn. now rewrite rev_involutive.
  - rewrite (Hd (rev batch) d e Hl Hm (rev batch) [] (Bn _)). cbn. now rewrite rev_involutive.
  - rewrite (Hd (rev batch) d e Hl Hm _ _ (broadcast_rev_same _)). cbn. now rewrite rev_involutive.
Qed.
Lemma operand_last s b d k : length b = length s -> operand_index (s ++ [d]) (b ++ [k]) = operand_index s b ++ [if d =? 1 then 0 else k].
Proof.
  intros E. unfold operand_index. rewrite !app_length, E. cbn [length]. rewrite !Nat.sub_diag. cbn [skipn].
  assert (C : forall (s b : list nat), length b = length s -> combine (s ++ [d]) (b ++ [k]) = combine s b ++ [(d, k)]).
  { clear. induction s as [|x s IH]; intros [|y b] E; try discriminate; [reflexivity|]. cbn. now rewrite IH by (cbn in E; congruence). }
  rewrite (C s b E), map_app. reflexivity.
Qed.
Lemma operand_lay batch b l k : valid_index batch b -> operand_index (lshape batch l) (b ++ [k]) = lidx b l k.
Proof.
  intros Hb. pose proof (valid_index_length _ _ Hb) as E. destruct l as [|d|d]; cbn [lshape lidx].
  - unfold operand_index. now destruct (skipn _ _).
  - unfold operand_index. rewrite app_length. cbn [length]. replace (length b + 1 - 1) with (length b) by lia.
    rewrite skipn_app, skipn_all, Nat.sub_diag. reflexivity.
  - rewrite (operand_last _ _ _ _ E). now rewrite (operand_index_id batch b Hb).
Qed.
Lemma operand_join n batch b l m k : ldim_ok n l -> ldim_ok n m -> valid_index batch b ->
  operand_index (lshape batch l) (lidx b (ljoin l m) k) = lidx b l k /\ operand_index (lshape batch m) (lidx b (ljoin l m) k) = lidx b m k.
Proof.
  intros Hl Hm Hb.
  assert (O1 : forall d c, operand_index [d] [c] = [if d =? 1 then 0 else c]) by reflexivity.
  assert (OB : forall d c, operand_index (batch ++ [d]) (b ++ [c]) = b ++ [if d =? 1 then 0 else c]).
  { intros d c. exact (operand_lay batch b (LB d) c Hb). }
  assert (O1B : forall d c, operand_index [d] (b ++ [c]) = [if d =? 1 then 0 else c]) by (intros d c; exact (operand_lay batch b (L1 d) c Hb)).
  assert (O0 : forall i, operand_index [] i = []) by (intros i; unfold operand_index; now destruct (skipn _ _)).
  unfold ldim_ok in *.
  destruct l as [|d|d], m as [|e|e]; cbn [lshape lidx ljoin ldim] in *; rewrite ?O1, ?OB, ?O1B, ?O0; split; try reflexivity;
  try (destruct (Nat.eqb_spec d 1)); try (destruct (Nat.eqb_spec e 1)); subst;
  repeat match goal with |- context [?u =? 1] => destruct (Nat.eqb_spec u 1) end; try reflexivity; try congruence; exfalso; lia.
Qed.
(** [a] shows [v b k] at point [b], component [k]. *)
Definition row (batch : shape) (n : nat) (a : nd RF) (l : lay) (v : index -> nat -> R) : Prop :=
  ldim_ok n l /\ nshape a = lshape batch l /\ forall b k, valid_index batch b -> k < n -> nat_ a (lidx b l k) = v b k.
Lemma bin_row batch n op a b la lb va vb : row batch n a la va -> row batch n b lb vb ->
  exists r, mbin op a b = Ok r /\ row batch n r (ljoin la lb) (fun i k => op (va i k) (vb i k)).
Proof.
  intros [Da [Sa Va]] [Db [Sb Vb]]. unfold mbin, nd_bin. rewrite Sa, Sb, (lshape_join batch n la lb Da Db). cbn [bind].
  eexists. split; [reflexivity|]. split; [|split; [reflexivity|]].
  - unfold ldim_ok in *. destruct la, lb; cbn in *; repeat match goal with |- context [?u =? 1] => destruct (Nat.eqb_spec u 1) end; lia.
  - intros i k Hi Hk. cbn [nat_]. destruct (operand_join n batch i la lb k Da Db Hi) as [-> ->]. now rewrite Va, Vb by assumption.
Qed.
Lemma map_row batch n f a la va : row batch n a la va -> row batch n (mmap f a) la (fun i k => f (va i k)).
Proof. intros [Da [Sa Va]]. split; [exact Da|]. split; [exact Sa|]. intros i k Hi Hk. cbn. now rewrite Va. Qed.
Lemma row_ext batch n a l v w : row batch n a l v -> (forall b k, k < n -> v b k = w b k) -> row batch n a l w.
Proof. intros [Da [Sa Va]] E. split; [exact Da|]. split; [exact Sa|]. intros i k Hi Hk. rewrite <- E by exact Hk. now apply Va. Qed.

Definition player (a : nd RF) : lay := match nshape a with [] => L0 | d :: _ => L1 d end.
Lemma parameters_row batch n a v : parameters a n v -> row batch n a (player a) (fun _ k => v k) /\ (player a = L0 \/ player a = L1 n).
Proof.
  unfold player. intros [[E H]|[E H]]; rewrite E; (split; [|auto]); (split; [|split; [exact E|]]).
  - now right.
  - intros b k _ Hk. cbn. destruct (Nat.eqb_spec n 1); [replace 0 with k by lia|]; now apply H.
  - now left.
  - intros b k _ Hk. cbn. now apply H.
Qed.
Lemma points_row batch n x : nshape x = batch -> row batch n (last_axis x) (LB 1) (fun b _ => nat_ x b).
Proof.
  intros E. subst batch. split; [now left|]. split; [reflexivity|]. intros b k _ _. cbn. rewrite removelast_app by discriminate. cbn. now rewrite app_nil_r.
Qed.

Lemma mix_row m x batch n mu sigma : nshape x = batch ->
  parameters (mx_means m) n mu -> parameters (mx_stds m) n sigma -> 0 < n ->
  (n = 1 \/ nshape (mx_means m) = [n] \/ nshape (mx_stds m) = [n]) ->
  exists p z q, gaussian_pdfs m x = Ok p /\ mix_Zs m = Ok z /\ mbin Rdiv p z = Ok q /\
    row batch n q (LB n) (fun b k => (component (mu k) (sigma k) (nat_ x b) / mass (mx_lo m) (mx_hi m) (mu k) (sigma k))%R).
Proof.
  intros Ex Pm Ps Hn Hd.
  destruct (parameters_row batch n _ _ Pm) as [Rm Lm]. destruct (parameters_row batch n _ _ Ps) as [Rs Ls].
  pose proof (points_row batch n x Ex) as Rx.
  unfold gaussian_pdfs. destruct (bin_row batch n Rminus _ _ _ _ _ _ Rx Rm) as [d [Ed Rd]]. rewrite Ed. cbn [bind].
  destruct (bin_row batch n Rdiv _ _ _ _ _ _ Rd Rs) as [u [Eu Ru]]. rewrite Eu. cbn [bind].
  pose proof (map_row batch n (fun s => 1 / (sqrt (2 * PI) * s))%R _ _ _ Rs) as Rc.
  pose proof (map_row batch n (fun t => exp (- (1 / 2) * t ^ 2))%R _ _ _ Ru) as Re.
  destruct (bin_row batch n Rmult _ _ _ _ _ _ Rc Re) as [p [Ep Rp]]. exists p.
  unfold mix_Zs, cdf_at, bound, DomainModel.interval_getitem. cbn [Z.eqb orb Pos.eqb bind].
  pose proof (map_row batch n (fun t => mx_hi m - t)%R _ _ _ Rm) as Rh.
  destruct (bin_row batch n Rdiv _ _ _ _ _ _ Rh Rs) as [h [Eh Rh']]. rewrite Eh. cbn [bind].
  pose proof (map_row batch n (fun t => mx_lo m - t)%R _ _ _ Rm) as Rl.
  destruct (bin_row batch n Rdiv _ _ _ _ _ _ Rl Rs) as [l [El Rl']]. rewrite El. cbn [bind].
  destruct (bin_row batch n Rminus _ _ _ _ _ _ (map_row batch n norm_cdf _ _ _ Rh') (map_row batch n norm_cdf _ _ _ Rl')) as [z [Ez Rz]].
  destruct (bin_row batch n Rdiv _ _ _ _ _ _ Rp Rz) as [q [Eq Rq]]. exists z, q.
  split; [exact Ep|]. split; [exact Ez|]. split; [exact Eq|].
  match type of Rq with row _ _ _ ?L _ => replace L with (LB n) in Rq end.
  { eapply row_ext; [exact Rq|]. intros b k Hk. reflexivity. }
  assert (Hm : player (mx_means m) = L1 n \/ player (mx_stds m) = L1 n \/ n = 1).
  { unfold player. destruct Hd as [->|[->| ->]]; auto. }
  destruct Lm as [Em|Em], Ls as [Es|Es]; rewrite Em, Es in *; cbn; rewrite ?Nat.eqb_refl; cbn;
  repeat match goal with |- context [?u =? 1] => destruct (Nat.eqb_spec u 1); cbn end; f_equal; try lia;
  destruct Hm as [?|[?|?]]; congruence.
Qed.
