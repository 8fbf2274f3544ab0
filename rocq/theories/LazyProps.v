(** C65: lazy tensors of tensor products, of differential operators on them and of Wendland
    covariance functions; Wendland covariance functions on arrays. *)
From Coq Require Import List Reals Bool Arith ZArith Lia Lra.
From Verif Require Import Base NdArray NdData PolyModel PolyClassModel BlockModel CovModel CovSpec CrossModel CrossSpec CrossProofs CrossKern ShapedModel DtypeModel
  PolyCalc FunExprModel DiffopModel DiffopSpec LfoModel LfoSpec KernelModel KernelSound BatchModel BatchSpec BatchProofs BatchEval BatchProps BatchKeops
  WendlandModel WendlandSpec WendlandProps
  TensorModel TensorSpec TensorProofs TensorDiffSpec TensorDiff TensorProps TensorDeriv TensorDiffProps LazyModel LazySpec LazyProofs.
Import ListNotations.
Open Scope R_scope.

(** ** Coordinates *)
(** Each coordinate of the points becomes an array of its own; with fewer coordinates than
    factors an IndexError, further coordinates are dropped. *)
Theorem C65_split : forall x0 x1 n0 n1 n d, nshape x0 = [n0; d] -> nshape (second x0 x1) = [n1; d] ->
  ((n <= d)%nat -> exists x0s x1s, split_outputs x0 x1 n = Ok (x0s, x1s) /\ length x0s = n /\ length x1s = n /\
    forall m, (m < n)%nat -> exists y0 y1, nth_error x0s m = Some y0 /\ nth_error x1s m = Some y1 /\
      nshape y0 = [n0] /\ (forall i, nat_ y0 [i] = nat_ x0 [i; m]) /\
      match x1, y1 with
      | None, None => True
      | Some x, Some y => nshape y = [n1] /\ forall j, nat_ y [j] = nat_ x [j; m]
      | _, _ => False
      end) /\
  ((d < n)%nat -> split_outputs x0 x1 n = Err IndexError).
Proof.
  intros x0 x1 n0 n1 n d E0 E1. split.
  - intros Hn. unfold split_outputs.
    destruct (mapR_seq (take_last x0) (fun m y => nshape y = [n0] /\ forall i, nat_ y i = coordinate x0 i m) n) as (x0s & -> & L0 & V0).
    { intros m Hm. destruct (take_last_ok x0 [n0] d m E0 ltac:(lia)) as (y & E & S & V). eauto. }
    cbn [bind].
    destruct (mapR_seq (take_last_opt x1) (fun m y => match x1 with None => y = None | Some x => exists z, y = Some z /\ nshape z = [n1] /\ forall i, nat_ z i = coordinate x i m end) n) as (x1s & -> & L1 & V1).
    { intros m Hm. destruct x1 as [x1|]; cbn [take_last_opt second] in *; [|eauto]. destruct (take_last_ok x1 [n1] d m E1 ltac:(lia)) as (z & -> & S & V). cbn [bind]. exists (Some z). eauto. }
    cbn [bind]. exists x0s, x1s. repeat (split; [reflexivity || assumption|]). intros m Hm. destruct (V0 m Hm) as (y0 & N0 & S0 & W0). destruct (V1 m Hm) as (y1 & N1 & W1).
    exists y0, y1. repeat (split; [assumption|]). split; [intros i; apply W0|]. destruct x1 as [x1|].
    + destruct W1 as (z & -> & S1 & W1). split; [exact S1|]. intros j. apply W1.
    + now subst y1.
  - intros Hn. unfold split_outputs.
    assert (X : forall k s, (s <= d)%nat -> (d < s + k)%nat -> mapR (take_last x0) (seq s k) = Err IndexError).
    { induction k as [|k IH]; intros s H1 H2; [lia|]. cbn [seq mapR]. unfold take_last at 1. rewrite E0. cbn [rev app]. destruct (Nat.ltb_spec s d); cbn [bind]; [|reflexivity].
      rewrite IH by lia. reflexivity. }
    rewrite X by lia. reflexivity.
Qed.
Print Assumptions C65_split.

(** ** Tensor products *)
(** The product of the factors at all pairs of points. *)
Theorem C65_tensor : forall K (klazy : K -> nd RF -> option (nd RF) -> result lazy) ks (g : nat -> R -> R -> R) x0 x1 n0 n1, ks <> [] ->
  (forall m k, nth_error ks m = Some k -> factor_lazy klazy k (g m)) ->
  nshape x0 = [n0; length ks] -> nshape (second x0 x1) = [n1; length ks] ->
  exists L, tp_lazy klazy ks x0 x1 = Ok L /\
    lazy_values L n0 n1 (fun i j => @tensor RF R (length ks) g (fun m => nat_ x0 [i; m]) (fun m => nat_ (second x0 x1) [j; m])).
Proof.
  intros K klazy ks g x0 x1 n0 n1 N H E0 E1. unfold tp_lazy. destruct (split_ok x0 x1 n0 n1 _ E0 E1) as (x0s & x1s & -> & _ & _ & V). cbn [bind]. unfold lazy_dimensionwise.
  destruct (mapR_enum (fun '(i, k) => bind (item x0s i) (fun y0 => bind (item x1s i) (fun y1 => klazy k y0 y1)))
    (fun m L => lazy_values L n0 n1 (fun i j => g m (nat_ x0 [i; m]) (nat_ (second x0 x1) [j; m]))) ks) as (Ls & -> & LL & HL).
  { intros m k Hk. assert (Hm : (m < length ks)%nat) by (apply nth_error_Some; congruence). destruct (V m Hm) as (y0 & y1 & -> & -> & S0 & S1 & W0 & W1). cbn [bind].
    destruct (H m k Hk y0 y1 n0 n1 S0 S1) as (L & -> & HL). exists L. split; [reflexivity|]. revert HL. apply lvals_ext. intros i j _ _. rewrite W0, W1. reflexivity. }
  cbn [bind]. destruct (reduce_lazy n0 n1 (fun m i j => g m (nat_ x0 [i; m]) (nat_ (second x0 x1) [j; m])) Ls) as (L & -> & R0).
  - intros ->. apply N. apply length_zero_iff_nil. symmetry. exact LL.
  - exact HL.
  - exists L. split; [reflexivity|]. rewrite LL in R0. exact R0.
Qed.
Print Assumptions C65_tensor.
(** Too few coordinates; the error of the first factor without a lazy tensor; no factors. *)
Theorem C65_tensor_errors : forall K (klazy : K -> nd RF -> option (nd RF) -> result lazy) ks x0 x1 n0 n1 d,
  nshape x0 = [n0; d] -> nshape (second x0 x1) = [n1; d] ->
  ((d < length ks)%nat -> tp_lazy klazy ks x0 x1 = Err IndexError) /\
  ((length ks <= d)%nat -> forall ks1 k ks2 e g, ks = ks1 ++ k :: ks2 ->
     (forall m k', nth_error ks1 m = Some k' -> factor_lazy klazy k' (g m)) ->
     (forall y0 y1, nshape y0 = [n0] -> nshape (second y0 y1) = [n1] -> klazy k y0 y1 = Err e) -> tp_lazy klazy ks x0 x1 = Err e) /\
  (ks = [] -> tp_lazy klazy ks x0 x1 = Err TypeError).
Proof.
  intros K klazy ks x0 x1 n0 n1 d E0 E1. destruct (C65_split x0 x1 n0 n1 (length ks) d E0 E1) as [C1 C2]. split; [|split].
  - intros H. unfold tp_lazy. now rewrite C2.
  - intros H ks1 k ks2 e g Ek H1 H2. unfold tp_lazy. destruct (C1 H) as (x0s & x1s & -> & L0 & L1 & V). cbn [bind].
    assert (V' : forall m, (m < length ks)%nat -> exists y0 y1, item x0s m = Ok y0 /\ item x1s m = Ok y1 /\ nshape y0 = [n0] /\ nshape (second y0 y1) = [n1]).
    { intros m Hm. destruct (V m Hm) as (y0 & y1 & N0 & N1 & S0 & _ & W). exists y0, y1. unfold item. rewrite N0, N1. repeat (split; [reflexivity || assumption|]).
      destruct x1 as [x1|], y1 as [y1|]; try contradiction; cbn [second] in *; [apply W|]. rewrite E0 in E1. congruence. }
    clear V. unfold lazy_dimensionwise, enumerate. set (f := fun '(i, k) => _).
    assert (X : forall ks1 s g, (s + length ks1 < length ks)%nat -> (forall m k', nth_error ks1 m = Some k' -> factor_lazy klazy k' (g m)) ->
      mapR f (combine (seq s (length (ks1 ++ k :: ks2))) (ks1 ++ k :: ks2)) = Err e).
    { clear ks1 Ek H1 g. induction ks1 as [|k' ks1 IH]; intros s g Hs H1; cbn [app length seq combine mapR] in *; unfold f at 1; (destruct (V' s ltac:(lia)) as (y0 & y1 & -> & -> & S0 & S1)); cbn [bind].
      - now rewrite (H2 y0 y1 S0 S1).
      - destruct (H1 0%nat k' eq_refl y0 y1 n0 n1 S0 S1) as (L & -> & _). cbn [bind]. rewrite (IH (S s) (fun m => g (S m))); [reflexivity|lia|]. intros m k'' Hk. apply (H1 (S m) k'' Hk). }
    rewrite Ek. rewrite (X ks1 0%nat g); [reflexivity| |exact H1]. rewrite Ek, app_length. cbn [length]. lia.
  - intros ->. reflexivity.
Qed.
Print Assumptions C65_tensor_errors.
(** In particular of the Matérn derivatives of C57 on the line. *)
Theorem C65_tensor_matern : forall sc cs x0 x1 n0 n1, cs <> [] ->
  (forall c, In c cs -> matern_derivative c /\ supported NumPy sc false false False [] c) ->
  nshape x0 = [n0; length cs] -> nshape (second x0 x1) = [n1; length cs] ->
  exists L, tp_lazy (fun c y0 y1 => keops sc c (T false y0) (option_map (T false) y1)) cs x0 x1 = Ok L /\
    lazy_values L n0 n1 (fun i j => @tensor RF R (length cs) (fun m a b => ceval (nth m cs CNotImpl) (fun _ => a) (fun _ => b))
      (fun m => nat_ x0 [i; m]) (fun m => nat_ (second x0 x1) [j; m])).
Proof.
  intros sc cs x0 x1 n0 n1 N H E0 E1. apply C65_tensor; [exact N| |exact E0|exact E1]. intros m c Hc. rewrite (nth_error_nth cs m CNotImpl Hc). destruct (H c (nth_error_In _ _ Hc)) as [D P].
  intros y0 y1 k0 k1 S0 S1. destruct (C57_keops sc c (T false y0) (option_map (T false) y1) k0 k1 []) as (L & E & DL & VL); [exact S0| |cbn; lia|exact D|exact P|].
  { destruct y1; exact S1. }
  exists L. split; [exact E|]. split; [exact DL|]. intros i j _ _. rewrite VL.
  assert (X : forall a b a' b' : array, a [] = a' [] -> b [] = b' [] -> ceval c a b = ceval c a' b').
  { intros a b a' b' Ea Eb. clear - P D Ea Eb.
    assert (V : forall i, In i (all_indices []) -> vdiff a b i = vdiff a' b' i) by (intros i [<-|[]]; unfold vdiff; now rewrite Ea, Eb).
    assert (B : forall (h : index -> R -> R), bsum [] (fun i => h i (vdiff a b i)) = bsum [] (fun i => h i (vdiff a' b' i))) by (intros h; unfold bsum; f_equal; apply map_ext_in; intros i Hi; now rewrite (V i Hi)).
    destruct P as [| | | | | | |k v r q Es L _ V0|k v v' q q' Es L _ V0 V1|k v v' q Es L _ Z V0|k w r q Es L _ Z V0|k w w' q Es L _ Z V0|k v w r q Es L _ V0| | |]; try contradiction;
    assert (Dk : mt_dist k a b = mt_dist k a' b') by (unfold mt_dist, bnorm, bnorm_sq, mt_diffs; rewrite Es; f_equal; apply (B (fun i t => (t * mt_scale k i) ^ 2)));
    cbn [ceval]; unfold matdir_eval, matdirdir_eval, umatdirdir_eval, umatlap_eval, umatlaplap_eval, umatdirlap_eval; rewrite ?Es, ?Dk; try reflexivity;
    unfold mt_diffs, bsum; cbn [all_indices map]; rewrite (V [] (or_introl eq_refl)); reflexivity. }
  apply X; [reflexivity|]. destruct y1; reflexivity.
Qed.
Print Assumptions C65_tensor_matern.

(** ** Differential operators on tensor products *)
(** The lazy tensor holds the values that both operators give; only the lazy tensors of the
    differentiated factors that occur are needed. *)
Theorem C65_operators : forall pdf ks (L0 L1 : tdop RF) C0 C1 G klazy x0 x1 n0 n1,
  terms L0 (length ks) C0 -> terms L1 (length ks) C1 -> factors_differentiable pdf ks C0 C1 [] [] (fun m p r _ _ => G m p r) ->
  (forall a c0 b c1 m k k1 k', In (a, c0) C0 -> In (b, c1) C1 -> nth_error ks m = Some k ->
     pdf 1%nat (MI [] [mi_entry b [m]]) k = Ok k1 -> pdf 0%nat (MI [] [mi_entry a [m]]) k1 = Ok k' ->
     factor_lazy klazy k' (G m (mi_entry a [m]) (mi_entry b [m]))) ->
  nshape x0 = [n0; length ks] -> nshape (second x0 x1) = [n1; length ks] ->
  exists d L, dt_init pdf ks L0 L1 = Ok d /\ dt_lazy klazy d x0 x1 = Ok L /\
    lazy_values L n0 n1 (fun i j => @diff_value RF R (length ks) C0 C1 G (fun m => nat_ x0 [i; m]) (fun m => nat_ (second x0 x1) [j; m])).
Proof.
  intros pdf ks L0 L1 C0 C1 G klazy x0 x1 n0 n1 T0 T1 D HK E0 E1.
  destruct (dt_init_ok pdf ks [] [] (fun m p r _ _ => G m p r) L0 L1 C0 C1 T0 T1 D) as [d [I _]]. exists d.
  unfold dt_lazy.
  destruct (init_facts pdf ks L0 L1 C0 C1 d T0 T1 [] [] (fun m p r _ _ => G m p r) D I) as [-> [_ [_ [_ [_ [_ C]]]]]].
  destruct (split_ok x0 x1 n0 n1 _ E0 E1) as (x0s & x1s & -> & _ & _ & V). cbn [bind].
  rewrite (compute_res_unfold pdf ks L0 L1 C0 C1 d T0 T1 [] [] (fun m p r _ _ => G m p r) D I).
  destruct (cr_pairs_none RF_laws (fun k idx => bind (item x0s (nth 0 idx 0%nat)) (fun y0 => bind (item x1s (nth 0 idx 0%nat)) (fun y1 => klazy k y0 y1)))
    (lbin Rmult) (fun s => lfun (Rmult s)) (lbin Rplus)
    (fun m p r v => lazy_values v n0 n1 (fun i j => G m p r (nat_ x0 [i; m]) (nat_ (second x0 x1) [j; m])))
    (fun v (h : nat * nat -> RF) => lazy_values v n0 n1 (fun i j => h (i, j)))
    (fun p r '(i, j) => @tensor RF R (length ks) (fun m => G m (p m) (r m)) (fun m => nat_ x0 [i; m]) (fun m => nat_ (second x0 x1) [j; m]))
    (dt_table d) (length ks)) with (ps := list_prod C0 C1) as [L [EL HL]].
  - intros m p r k Hm Ek. cbn [nth]. destruct (V m Hm) as (y0 & y1 & -> & -> & S0 & S1 & W0 & W1). cbn [bind].
    destruct (init_table pdf ks L0 L1 C0 C1 d T0 T1 I m p r k Ek) as (a & c0 & b & c1 & k0 & k1 & Ha & Hb & Nk & -> & -> & P1 & P0).
    destruct (HK a c0 b c1 m k0 k1 k Ha Hb Nk P1 P0 y0 y1 n0 n1 S0 S1) as (L & -> & HL). exists L. split; [reflexivity|]. revert HL. apply lvals_ext. intros i j _ _. rewrite W0, W1. reflexivity.
  - intros vs p r Lv Hv. destruct (reduce_lazy n0 n1 (fun m i j => G m (p m) (r m) (nat_ x0 [i; m]) (nat_ (second x0 x1) [j; m])) vs) as (L & -> & R0).
    + intros ->. destruct D as [N _]. apply N, length_zero_iff_nil. symmetry. exact Lv.
    + exact Hv.
    + exists L. split; [reflexivity|]. rewrite Lv in R0. exact R0.
  - intros c v h Hv. exact (lvals_fun (Rmult c) v n0 n1 _ Hv).
  - intros v w h h' Hv Hw. exact (lvals_bin Rplus v w n0 n1 _ _ Hv Hw).
  - intros v h h' E Hv. revert Hv. apply lvals_ext. intros i j _ _. apply E.
  - exact C.
  - exact (pairs_nonempty ks L0 L1 C0 C1 T0 T1).
  - exists L. split; [exact I|]. rewrite EL. cbn [bind cr_value]. split; [reflexivity|]. revert HL. apply lvals_ext. intros i j _ _.
    rewrite <- (diff_value_pairs (F := RF) RF_laws). unfold pair_value. reflexivity.
Qed.
Print Assumptions C65_operators.
(** So it holds the derivatives of the product of the factors. *)
Theorem C65_derivative : forall pdf ks (L0 L1 : tdop RF) C0 C1 G T0 T1 klazy x0 x1 n0 n1,
  terms L0 (length ks) C0 -> terms L1 (length ks) C1 -> factors_differentiable pdf ks C0 C1 [] [] (fun m p r _ _ => G m p r) ->
  derivatives (length ks) T0 T1 G -> orders_upto (length ks) T0 C0 -> orders_upto (length ks) T1 C1 ->
  (forall a c0 b c1 m k k1 k', In (a, c0) C0 -> In (b, c1) C1 -> nth_error ks m = Some k ->
     pdf 1%nat (MI [] [mi_entry b [m]]) k = Ok k1 -> pdf 0%nat (MI [] [mi_entry a [m]]) k1 = Ok k' ->
     factor_lazy klazy k' (G m (mi_entry a [m]) (mi_entry b [m]))) ->
  nshape x0 = [n0; length ks] -> nshape (second x0 x1) = [n1; length ks] ->
  exists d L, dt_init pdf ks L0 L1 = Ok d /\ dt_lazy klazy d x0 x1 = Ok L /\
    lazy_values L n0 n1 (fun i j => apply_terms C0 (fun x' => apply_terms C1 (fun y' =>
      @tensor RF R (length ks) (fun m => G m 0%nat 0%nat) (fun m => x' [m]) (fun m => y' [m])) (fun l => nat_ (second x0 x1) (j :: l))) (fun l => nat_ x0 (i :: l))).
Proof.
  intros pdf ks L0 L1 C0 C1 G T0 T1 klazy x0 x1 n0 n1 H0 H1 D DG O0 O1 HK E0 E1.
  destruct (C65_operators pdf ks L0 L1 C0 C1 G klazy x0 x1 n0 n1 H0 H1 D HK E0 E1) as (d & L & I & E & HL). exists d, L. split; [exact I|]. split; [exact E|].
  revert HL. apply lvals_ext. intros i j _ _. symmetry. apply (C53_derivative (length ks) T0 T1 C0 C1 G); assumption.
Qed.
Print Assumptions C65_derivative.

(** ** Wendland covariance functions *)
(** The Wendland function of the distance scaled by the lengthscales. *)
Definition wendland_at (sh : shape) (k : nat) (len x y : array) : R :=
  wend_radial (size sh / 2 + k + 1) k (sqrt (total (map (fun i => ((x i - y i) / len i) ^ 2) (all_indices sh)))).
(** Lazy tensors: points on the line or vectors, one lengthscale or one per coordinate. *)
Theorem C65_wendland_lazy : forall sc sh k len w x0 x1 n0 n1, let y := match x1 with Some y => y | None => x0 end in
  mk_wendland sh (Z.of_nat k) len = Ok w -> lens_ok sc sh len -> (length sh <= 1)%nat -> t_shape x0 = n0 :: sh -> t_shape y = n1 :: sh ->
  exists L, wendland_lazy sc w x0 x1 = Ok L /\
    lazy_values L n0 n1 (fun i j => wendland_at sh k len (fun l => nat_ (t_arr x0) (i :: l)) (fun l => nat_ (t_arr y) (j :: l))).
Proof.
  intros sc sh k len w x0 x1 n0 n1 y Hw Le N S0 S1. destruct (mk_wendland_ok _ _ _ _ Hw) as (Es & El & V). pose proof (C38_kernel sh k len w Hw) as HK. cbv zeta in HK. subst sh len.
  unfold wendland_lazy. fold y. destruct (wl_ldists_ok x0 y n0 n1 sc w N S0 S1 Le) as (r & -> & Hr). cbn [bind]. destruct (wfun_lazy_ok (wl_poly w) r _ V Hr) as (L & -> & DL & VL).
  exists L. split; [reflexivity|]. split; [exact DL|]. intros i j _ _. rewrite VL. exact (proj1 (HK (px x0 i) (py y j))).
Qed.
Print Assumptions C65_wendland_lazy.
(** Arrays of points of any shape, broadcast against each other, in NumPy (not two integer arrays) and JAX. *)
Theorem C65_wendland_arrays : forall m sc sh k len w x0 x1 b0 b1 b,
  mk_wendland sh (Z.of_nat k) len = Ok w -> lens_ok sc sh len -> t_shape x0 = b0 ++ sh -> t_shape x1 = b1 ++ sh -> broadcast_shapes b0 b1 = Ok b ->
  m = Jax \/ t_int x0 && t_int x1 = false ->
  exists a, wendland_b m sc w x0 (Some x1) = Ok a /\ t_int a = false /\
    entries (t_arr a) b (fun i => wendland_at sh k len (pt (F := RF) (t_arr x0) (operand_index b0 i)) (pt (F := RF) (t_arr x1) (operand_index b1 i))).
Proof.
  intros m sc sh k len w x0 x1 b0 b1 b Hw Le S0 S1 B I. destruct (mk_wendland_ok _ _ _ _ Hw) as (Es & El & V). pose proof (C38_kernel sh k len w Hw) as HK. cbv zeta in HK. subst sh len.
  destruct (checked_ok x0 x1 b0 b1 b B (wl_shape w) (fun x0 x1 => bind (dists m (length (wl_shape w)) (wl_scale_t sc w) x0 x1) (wfun_b m (wl_poly w))) (wendland_eval w) (conj S0 S1)) as (a & E & A).
  - destruct (sq_dists_ok m x0 x1 b0 b1 b B (wl_shape w) (wl_scale_t sc w) (wl_scale w) _ I (conj S0 S1) (wlscale_holds sc w b Le)) as (c & Ec & Hc).
    unfold dists. rewrite Ec. cbn [bind]. destruct (wfun_holds m (wl_poly w) b _ _ V (tfun_holds sqrt _ _ _ _ _ _ Hc)) as (a & -> & A). exists a. split; [reflexivity|]. exact A.
  - exists a. split; [exact E|]. apply holds_entries. eapply holds_ext; [exact A|]. intros i j _ _. apply HK.
Qed.
Print Assumptions C65_wendland_arrays.
(** One array of floats: ones. *)
Theorem C65_wendland_one_array : forall m sc sh k len w x0 b,
  mk_wendland sh (Z.of_nat k) len = Ok w -> t_shape x0 = b ++ sh -> t_int x0 = false ->
  exists a, wendland_b m sc w x0 None = Ok a /\ t_int a = false /\ entries (t_arr a) b (fun _ => 1).
Proof.
  intros m sc sh k len w x0 b Hw S I. destruct (mk_wendland_ok _ _ _ _ Hw) as (Es & El & V). pose proof (C38_kernel sh k len w Hw) as HK. cbv zeta in HK. subst sh.
  assert (X : exists a, bind (dists m (length (wl_shape w)) (wl_scale_t sc w) x0 None) (wfun_b m (wl_poly w)) = Ok a /\ holds Kb b [] a (fun _ _ => wendland_function (wl_poly w) 0)).
  { unfold dists, sq_dists. rewrite I. replace (match m with NumPy => Ok (like (length (wl_shape w)) x0 0) | Jax => Ok (like (length (wl_shape w)) x0 0) end) with (@Ok tnd (like (length (wl_shape w)) x0 0)) by now destruct m.
    cbn [bind]. exact (wfun_holds m (wl_poly w) b _ _ V (like_holds b (wl_shape w) x0 0 I S)). }
  destruct X as (a & E & A). exists a. split; [exact (checked_one _ (fun x0 x1 => bind (dists m (length (wl_shape w)) (wl_scale_t sc w) x0 x1) (wfun_b m (wl_poly w))) _ _ _ _ S E A)|].
  apply holds_entries. eapply holds_ext; [exact A|]. intros i j _ _. cbv beta.
  change (wendland_none w (fun _ => 0) = 1). apply (HK (fun _ => 0) (fun _ => 0)).
Qed.
Print Assumptions C65_wendland_one_array.
(** A conditional expression takes symbolic tensors of dimension one only. *)
Theorem C65_conditional : forall (c a : lazy) b,
  (l_dim c = 1%nat -> l_dim a = 1%nat -> exists r, lifelse c a b = Ok r /\ l_dim r = 1%nat /\
     forall i j k, (0 <= l_at c i j k -> l_at r i j k = l_at a i j k) /\ (l_at c i j k < 0 -> l_at r i j k = b)) /\
  (l_dim c <> 1%nat \/ l_dim a <> 1%nat -> lifelse c a b = Err ValueError).
Proof.
  intros c a b. unfold lifelse. split.
  - intros -> ->. cbn [Nat.eqb andb]. eexists. split; [reflexivity|]. split; [reflexivity|]. intros i j k. cbn [l_at]. unfold Rleb. destruct (Rle_dec 0 (l_at c i j k)); split; intros H; try reflexivity; exfalso; lra.
  - intros [H|H]; apply Nat.eqb_neq in H; rewrite H; [|rewrite andb_false_r]; reflexivity.
Qed.

(** Shapes that do not fit: a ValueError. *)
Theorem C65_wendland_shape_errors : forall m sc w x0 x1,
  ((forall b, t_shape x0 <> b ++ wl_shape w) -> wendland_b m sc w x0 x1 = Err ValueError) /\
  (forall y b0 b1, x1 = Some y -> t_shape x0 = b0 ++ wl_shape w -> t_shape y = b1 ++ wl_shape w -> (forall b, broadcast_shapes b0 b1 <> Ok b) -> wendland_b m sc w x0 x1 = Err ValueError).
Proof.
  intros m sc w x0 x1. unfold wendland_b, checked, t_shape. split.
  - intros H. unfold check_shapes. now rewrite batch_shape_err.
  - intros y b0 b1 -> S0 S1 H. unfold check_shapes. cbn [option_map second]. rewrite (batch_shape_ok _ _ _ S0), (batch_shape_ok _ _ _ S1). cbn [bind].
    destruct (broadcast_shapes b0 b1) as [b|e] eqn:E; [destruct (H b eq_refl)|]. cbn [bind]. f_equal. exact (ShapedProps.broadcast_err _ _ _ E).
Qed.

(** ** Examples *)
Definition ex_pts (n d : nat) : nd RF := Nd [n; d] (fun i => INR (nth 0 i 0%nat) + 2 * INR (nth 1 i 0%nat)).
Definition ex_m1 : matern := Matern [] (fun _ => 3) (HalfInt 2).
Definition ex_c1 : cov := CMatDir ex_m1 (fun _ => 1) true ex_q.
Definition ex_c2 : cov := CMatDirDir ex_m1 (fun _ => 1) (fun _ => 2) ex_q ex_q.
Example C65_ex_tensor : exists L, tp_lazy (fun c y0 y1 => keops false c (T false y0) (option_map (T false) y1)) [ex_c1; ex_c2] (ex_pts 3 2) None = Ok L /\
  lazy_values L 3 3 (fun i j => @tensor RF R 2 (fun m a b => ceval (nth m [ex_c1; ex_c2] CNotImpl) (fun _ => a) (fun _ => b))
      (fun m => nat_ (ex_pts 3 2) [i; m]) (fun m => nat_ (ex_pts 3 2) [j; m])).
Proof.
  apply (C65_tensor_matern false [ex_c1; ex_c2] (ex_pts 3 2) None 3 3); [discriminate| |reflexivity|reflexivity].
  intros c [<-|[<-|[]]]; (split; [exact I|]); constructor; auto using ex_valid; intros _ ? _; reflexivity.
Qed.
(** Lazy tensors of the factors of C53's example. *)
Definition ex_klazy (k : kfun RF) (y0 : nd RF) (y1 : option (nd RF)) : result lazy :=
  match k with
  | KLeaf _ _ _ v => Ok (mkL 1 (fun i j _ => v (fun _ => nat_ y0 [i]) (fun _ => nat_ (second y0 y1) [j]) [] []))
  | _ => Err NotImplementedError
  end.
Example C65_ex_operators : exists d L, dt_init ex_pdf [ex_kexp; ex_kexp] ex_L0 ex_L1 = Ok d /\ dt_lazy ex_klazy d (ex_pts 3 2) (Some (ex_pts 4 2)) = Ok L /\
  lazy_values L 3 4 (fun i j => apply_terms [(MI [2%nat] [1%nat; 0%nat], 1)] (fun x' => apply_terms ex_C1 (fun y' =>
      @tensor RF R 2 (fun m => ex_expG m 0%nat 0%nat) (fun m => x' [m]) (fun m => y' [m])) (fun l => nat_ (ex_pts 4 2) (j :: l))) (fun l => nat_ (ex_pts 3 2) (i :: l))).
Proof.
  apply (C65_derivative ex_pdf [ex_kexp; ex_kexp] ex_L0 ex_L1 [(MI [2%nat] [1%nat; 0%nat], 1)] ex_C1 ex_expG (fun _ => 2%nat) (fun _ => 2%nat) ex_klazy (ex_pts 3 2) (Some (ex_pts 4 2)) 3 4).
  - apply C53_ex_terms.
  - apply C53_ex_terms.
  - apply C53_ex_factors.
  - apply C53_ex_derivatives.
  - intros a c [E|[]]. injection E as <- <-. split; [reflexivity|]. intros m Hm. cbn in Hm; destruct m as [|[|m]]; cbn; lia.
  - intros a c [E|[E|[]]]; injection E as <- <-; (split; [reflexivity|]); intros m Hm; cbn in Hm; destruct m as [|[|m]]; cbn; lia.
  - intros a c0 b c1 m k k1 k' _ _ E P1 P0. assert (k = ex_kexp) as -> by (destruct m as [|[|m]]; cbn in E; [congruence|congruence|destruct m; discriminate]).
    cbn in P1. injection P1 as <-. cbn in P0. injection P0 as <-. intros y0 y1 n0 n1 _ _. eexists. split; [reflexivity|]. split; [reflexivity|]. intros i j _ _. cbn [l_at].
    unfold ex_expG. unfold mi_order. cbn [mi_arr list_sum fold_right]. rewrite !Nat.add_0_r. match goal with |- ?u = ?w => change (@eq R u w) end. ring.
  - reflexivity.
  - reflexivity.
Qed.
Example C65_ex_wendland : exists w, mk_wendland [2%nat] 1 (fun _ => 3) = Ok w /\
  exists L, wendland_lazy true w (T false (ex_pts 3 2)) None = Ok L /\ lazy_values L 3 3 (fun i j =>
    wendland_at [2%nat] 1 (fun _ => 3) (fun l => nat_ (ex_pts 3 2) (i :: l)) (fun l => nat_ (ex_pts 3 2) (j :: l))).
Proof.
  destruct (proj1 (C38_accepts 2 1) ltac:(cbn; lia)) as [p Hp].
  assert (Hw : mk_wendland [2%nat] (Z.of_nat 1) (fun _ => 3) = Ok (Wendland [2%nat] (fun _ => 3) p)) by (unfold mk_wendland; cbn [size fold_right]; change (Z.of_nat (2 * 1)) with 2%Z; change (Z.of_nat 1) with 1%Z; rewrite Hp; reflexivity).
  eexists. split; [exact Hw|]. apply (C65_wendland_lazy true _ _ _ _ (T false (ex_pts 3 2)) None 3 3 Hw); try reflexivity; try (cbn; lia); intros _ ? _; reflexivity.
Qed.
