(** C66: the Wendland covariance functions of points with one coordinate, and products of them, are
    positive definite. *)
From Coq Require Import List Arith Lia Reals Lra ZArith FunctionalExtensionality.
From Coquelicot Require Import Coquelicot.
From Verif Require Import Base NdArray NdData FunExprModel DiffopModel DiffopSpec DiffopProofs LfoModel LfoSpec KernelModel KernelSpec CovModel CovSpec CrossModel CrossSpec CrossKern BlockModel BlockSpec TensorModel TensorSpec TensorProofs TensorProps
  ParamSpec TensorSchur PsdBase PsdMat PdeCondSpec MaternStrict StatChain TensorStrict TensorFactor WendlandModel WendlandSpec WendlandProps WendPsd WendChain.
Import ListNotations.
Local Open Scope R_scope.

(** A covariance function of points of shape [sh] is positive definite: it is symmetric, and the
    variance of a combination of values is nonnegative, and zero only if the weights at each point add
    up to zero. *)
Definition positive_definite (sh : shape) (K : array -> array -> R) : Prop :=
  (forall x y, K x y = K y x) /\ psd_kernel (K : array -> array -> RF) /\ forall l, form K l = 0 -> nowhere sh l.
(** The same for functions of real numbers. *)
Definition positive_definite_line (g : R -> R -> R) : Prop :=
  (forall s t, g s t = g t s) /\ psd_kernel (g : R -> R -> RF) /\ forall l, form g l = 0 -> forall phi : R -> R, sumR (fun p => phi (snd p) * fst p) l = 0.

Lemma line_point sh i0 (g : R -> R -> R) : all_indices sh = [i0] -> positive_definite_line g -> positive_definite sh (fun x y => g (x i0) (y i0)).
Proof.
  intros E (S & P & T). split; [intros; apply S|]. split; [apply (psd_pull (g : R -> R -> RF) (fun x : array => x i0) P)|].
  intros l Z phi A. assert (Q : form g (map (fun p => (fst p, snd p i0)) l) = 0).
  { etransitivity; [|exact Z]. unfold form. rewrite sumR_map. apply sumR_ext. intros p _. rewrite sumR_map. reflexivity. }
  rewrite <- (T _ Q (fun t => phi (fun _ => t))). rewrite sumR_map. apply sumR_ext. intros p _. cbn [fst snd]. f_equal. apply A.
  intros i Hi. apply all_indices_spec in Hi. rewrite E in Hi. destruct Hi as [<-|[]]. reflexivity.
Qed.
Lemma wend_line k l : l <> 0 -> positive_definite_line (fun s t => wend_radial (S k) k ((s - t) / l)).
Proof.
  intros H. assert (E : forall s t, wend_radial (S k) k ((s - t) / l) = wg k l 0 (s - t)) by (intros; now rewrite wg_0).
  split; [|split].
  - intros s t. rewrite !E, <- (wg_even k l). f_equal. ring.
  - apply (psd_ext (fun x y : R => wg k l 0 (x - y) : car RF)); [intros x y; symmetry; apply E|now apply wg_psd].
  - intros s Z phi. set (s' := map (fun p : R * R => (fst p, (0%nat, snd p))) s).
    assert (Z' : form (lk (wg k l)) s' = 0).
    { etransitivity; [|exact Z]. unfold form, s'. rewrite sumR_map. apply sumR_ext. intros p _. rewrite sumR_map. apply sumR_ext. intros q _. cbn [fst snd]. rewrite E. unfold lk. cbn [fst snd pow Nat.add]. ring. }
    rewrite <- (wg_strict k l H s' ltac:(intros p Hp; apply in_map_iff in Hp as (q & <- & _); cbn; lia) Z' (fun v => phi (snd v))). unfold s'. rewrite sumR_map. apply sumR_ext. intros p _. cbn [fst snd]. ring.
Qed.
Lemma one_index sh : size sh = 1%nat -> exists i0, all_indices sh = [i0].
Proof. intros H. pose proof (length_all sh) as E. rewrite H in E. destruct (all_indices sh) as [|i0 [|i1 l]]; try discriminate. now exists i0. Qed.
(** ** Values *)
Lemma wendland_one sh k len w i0 : mk_wendland sh (Z.of_nat k) len = Ok w -> all_indices sh = [i0] -> forall x y, wendland_eval w x y = wend_radial (S k) k ((x i0 - y i0) / len i0).
Proof.
  intros H E x y. pose proof (length_all sh) as L. rewrite E in L. cbn [length] in L.
  destruct (C38_kernel sh k len w H x y) as [V _]. rewrite V. rewrite <- L, Nat.div_small, Nat.add_0_l, Nat.add_1_r by lia.
  rewrite E. cbn [map]. unfold LfoSpec.total. cbn [fold_right]. rewrite Rplus_0_r.
  rewrite <- Rsqr_pow2, sqrt_Rsqr_abs. unfold wend_radial. now rewrite Rabs_Rabsolu.
Qed.
Lemma wendland_pd sh k len w : mk_wendland sh (Z.of_nat k) len = Ok w -> size sh = 1%nat -> (forall i, valid_index sh i -> len i <> 0) -> positive_definite sh (wendland_eval w).
Proof.
  intros H O L. destruct (one_index sh O) as [i0 E].
  replace (wendland_eval w) with (fun x y : array => wend_radial (S k) k ((x i0 - y i0) / len i0)); [|extensionality x; extensionality y; symmetry; now apply (wendland_one sh k len w)].
  apply (line_point sh i0 (fun s t => wend_radial (S k) k ((s - t) / len i0)) E). apply wend_line. apply L, all_indices_spec. rewrite E. now left.
Qed.
Lemma wendland_exists sh k len : size sh = 1%nat -> exists w, mk_wendland sh (Z.of_nat k) len = Ok w.
Proof.
  intros O. destruct (proj1 (C38_accepts (Z.of_nat (size sh)) (Z.of_nat k))) as [p Hp]; [rewrite O; change (Z.of_nat 1 / 2)%Z with 0%Z; lia|].
  exists (Wendland sh len p). unfold mk_wendland. now rewrite Hp.
Qed.
(** ** Products *)
Lemma tensor_pd n (g : nat -> R -> R -> R) : (forall m, (m < n)%nat -> positive_definite_line (g m)) -> positive_definite [n] (fun x y => @tensor RF R n g (fun m => x [m]) (fun m => y [m])).
Proof.
  intros H. split; [|split].
  - intros x y. apply (tk_sym g n). intros m Hm. exact (proj1 (H m Hm)).
  - apply (psd_pull (tk g n : (nat -> R) -> (nat -> R) -> RF) (fun (x : array) (m : nat) => x [m])). apply tk_psd. intros m Hm. destruct (H m Hm) as (? & ? & _). split; assumption.
  - intros l Z phi A. set (z := fun (x : array) (m : nat) => x [m]).
    assert (T : forall m, (m < n)%nat -> sym (g m) /\ psd_kernel (g m : R -> R -> RF) /\ strict_on (fun _ : R => True) (g m)).
    { intros m Hm. destruct (H m Hm) as (S & P & T). split; [exact S|]. split; [exact P|]. intros s _ Zs ph. rewrite <- (T s Zs ph). apply sumR_ext. intros; apply Rmult_comm. }
    assert (Z' : form (tk g n) (map (fun p => (fst p, z (snd p))) l) = 0).
    { etransitivity; [|exact Z]. unfold form. rewrite sumR_map. apply sumR_ext. intros p _. rewrite sumR_map. reflexivity. }
    pose proof (tk_strict Req_EM_T (fun _ _ => True) g n T _ (fun _ _ _ _ => Logic.I) Z' (fun u => phi (fun i => match i with [m] => u m | _ => 0 end))) as Q.
    rewrite <- Q.
    + rewrite sumR_map. apply sumR_ext. intros p _. cbn [fst snd]. rewrite Rmult_comm. f_equal. apply A. intros i Hi. apply all_indices_spec in Hi. cbn [all_indices] in Hi. apply in_flat_map in Hi as (m & _ & [<-|[]]). reflexivity.
    + intros u v Huv. apply A. intros i Hi. apply all_indices_spec in Hi. cbn [all_indices] in Hi. apply in_flat_map in Hi as (m & Hm & [<-|[]]). apply in_seq in Hm. apply Huv. lia.
Qed.
(** The product of Wendland covariance functions of points of shape (), as the code computes it. *)
Definition wleaf (w : wendland) : kfun RF := KLeaf (F := RF) [] [] [] (fun x y _ _ => wendland_eval w x y).
Definition wproduct (ws : list wendland) (x y : array) : R :=
  @tensor RF R (length ws) (fun m s t => match nth_error ws m with Some w => wendland_eval w (fun _ => s) (fun _ => t) | None => 0 end) (fun m => x [m]) (fun m => y [m]).
(** [w] is a Wendland covariance function of points of shape () with nonzero lengthscale. *)
Definition wend_factor (w : wendland) : Prop := exists k len, mk_wendland [] (Z.of_nat k) len = Ok w /\ len [] <> 0.
Lemma factor_line w : wend_factor w -> positive_definite_line (fun s t => wendland_eval w (fun _ => s) (fun _ => t)).
Proof.
  intros (k & len & H & L). replace (fun s t => wendland_eval w (fun _ => s) (fun _ => t)) with (fun s t => wend_radial (S k) k ((s - t) / len [])); [now apply wend_line|].
  extensionality s. extensionality t. symmetry. now rewrite (wendland_one [] k len w [] H eq_refl).
Qed.
Lemma wproduct_pd ws : List.Forall wend_factor ws -> positive_definite [length ws] (wproduct ws).
Proof.
  intros H. apply (tensor_pd (length ws)). intros m Hm. destruct (nth_error ws m) as [w|] eqn:E; [|apply nth_error_None in E; lia].
  apply factor_line. rewrite Forall_forall in H. apply H. now apply nth_error_In in E.
Qed.
Lemma wproduct_call ws (x0 : nd RF) x1 b0 b1 b : List.Forall wend_factor ws -> ws <> [] -> points [length ws] x0 x1 b0 b1 -> broadcast_shapes b0 b1 = Ok b ->
  exists a, tp_call (map wleaf ws) x0 x1 = Ok a /\ cov_array a b [] [] (fun i _ _ =>
    wproduct ws (CrossModel.pt (F := RF) x0 (operand_index b0 i)) (CrossModel.pt (F := RF) (second x0 x1) (operand_index b1 i))).
Proof.
  intros H N P B.
  destruct (C29_value RF RF_laws (map wleaf ws) [] [] (fun m _ _ s t => match nth_error ws m with Some w => wendland_eval w (fun _ => s) (fun _ => t) | None => 0 end) x0 x1 b0 b1 b) as (a & _ & E & _ & V & _).
  - split; [destruct ws; [congruence|discriminate]|]. intros m k Hk. rewrite nth_error_map in Hk. destruct (nth_error ws m) as [w|] eqn:E; [|discriminate]. injection Hk as <-.
    apply (leaf_values (F := RF)). intros x y _ _.
    rewrite Forall_forall in H. destruct (H w (nth_error_In _ _ E)) as (k & len & Hw & _). now rewrite !(wendland_one [] k len w [] Hw eq_refl).
  - rewrite map_length. exact P.
  - exact B.
  - exists a. split; [exact E|]. rewrite map_length in V. exact V.
Qed.
(** ** Derivatives *)
(** Derivatives of orders at most [k] in each argument of the covariance function, at points of shape (). *)
Definition derivative_cov (K : array -> array -> R) (p q : nat * R) : R :=
  in_arg 0 (Nat.iter (fst p) (pd [])) (in_arg 1 (Nat.iter (fst q) (pd [])) K) (fun _ => snd p) (fun _ => snd q).
Lemma wendland_derivatives k len w : mk_wendland [] (Z.of_nat k) len = Ok w -> len [] <> 0 -> forall l, (forall p, In p l -> (fst (snd p) <= k)%nat) ->
  0 <= form (derivative_cov (wendland_eval w)) l /\
  (form (derivative_cov (wendland_eval w)) l = 0 -> forall phi : nat * R -> R, sumR (fun p => fst p * phi (snd p)) l = 0).
Proof.
  intros H L l O. pose proof (wg_chain k (len [])) as C.
  assert (V : wendland_eval w = fun x y : array => wg k (len []) 0 (x [] - y [])).
  { extensionality x. extensionality y. now rewrite (wendland_one [] k len w [] H eq_refl), wg_0. }
  assert (E : form (derivative_cov (wendland_eval w)) l = form (lk (wg k (len []))) l).
  { unfold form. apply sumR_ext. intros p Hp. apply sumR_ext. intros q Hq. f_equal. unfold derivative_cov. rewrite V, (both_upto _ k _ _ _ _ C (O p Hp) (O q Hq)). now destruct (snd p), (snd q). }
  rewrite E. split.
  - destruct C as [D Cc]. apply (line_psd (wg k (len [])) k D Cc (wg_psd k _ L) l O).
  - intros Z. apply (wg_strict k (len []) L l O Z).
Qed.
