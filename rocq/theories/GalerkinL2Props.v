(** C27: Galerkin covariance functions built with the L2 projection onto linear finite
    elements.  Nothing is assumed of the projection; the kernel is continuous. *)
From Coq Require Import List Arith Lia Reals Lra ZArith.
From Coquelicot Require Import Coquelicot.
From Verif Require Import Base NdArray NdData BlockModel CovModel CovSpec CrossModel CrossSpec CrossProofs CrossKern CrossFun CrossViews ParamModel ParamSpec ParamProofs TensorSchur PsdBase PsdIntegral
  FemModel FemSpec FemProofs FemProps FemIntegral PiecewiseSpec ProjSpec ProjProofs ProjProps
  GalerkinModel GalerkinSpec GalerkinProofs GalerkinProps GalerkinL2Model GalerkinL2Proofs.
Import ListNotations.
Open Scope R_scope.

(** A scalar kernel on the line as a kernel on points of shape (). *)
Definition line_kernel (k : R -> R -> R) : point RF -> point RF -> RF := fun p q => k (p []) (q []).
(** Continuous on the plane, symmetric. *)
Definition plane_continuous (k : R -> R -> R) : Prop := forall x y, continuity_2d_pt k x y.
Definition symmetric (k : R -> R -> R) : Prop := forall x y, k x y = k y x.

(** Such a projection exists for every basis. *)
Theorem C27_l2_exists : forall grid zb b nz, increasing grid -> basis_init grid zb = Ok b -> exists P, is_fem_projection b nz P.
Proof.
  intros grid zb b nz Hinc Hb. destruct (normalizer_matrix grid zb b Hinc Hb nz) as [V HV].
  exists (mkproj 0 [] (b_len b) (fem_feature b) 0 nz (fun (f : point RF -> RF) i =>
    sum_upto (b_len b) (fun j => V i j * RInt (fun t => basis_eval b t j * f (fun _ => t)) (left_end grid) (right_end grid)))).
  repeat split. intros f res Q. cbn [pj_fun].
  assert (E : forall i, sum_upto (b_len b) (fun j => V i j * RInt (fun t => basis_eval b t j * f (fun _ => t)) (left_end grid) (right_end grid))
    = sum_upto (b_len b) (fun j => V i j * res j)).
  { intros i. apply sum_upto_ext. intros j Hj. f_equal. apply is_RInt_unique. exact (c09_quad grid zb b Hinc Hb _ res Q j Hj). }
  specialize (HV res). destruct nz; intros i Hi; [|rewrite E; now apply HV]. rewrite <- (HV i Hi). f_equal. apply map_ext. intros j. now rewrite E.
Qed.
Section Fem.
Variables (grid : list R) (zb : bool) (b : basis) (nz : bool) (P : projection RF) (k : R -> R -> R).
Hypotheses (Hinc : increasing grid) (Hb : basis_init grid zb = Ok b) (HP : is_fem_projection b nz P) (Ck : plane_continuous k) (Sk : symmetric k).
Lemma l2_admissible : admissible [] (line_kernel k) P (cont_between grid).
Proof. destruct (normalizer_matrix grid zb b Hinc Hb nz) as [V HV]. exact (fem_admissible grid zb b nz Hinc Hb V HV P HP k Ck Sk). Qed.
Lemma l2_sym i j : (i < pj_n P)%nat -> (j < pj_n P)%nat ->
  pj_fun P (fun x => pj_fun P (line_kernel k x) j) i = pj_fun P (fun x => pj_fun P (line_kernel k x) i) j.
Proof.
  destruct (normalizer_matrix grid zb b Hinc Hb nz) as [V HV]. assert (EN : pj_n P = b_len b) by apply HP. rewrite EN.
  exact (fem_sym grid zb b nz Hinc Hb V HV P HP k Ck Sk i j).
Qed.
End Fem.
(** The constructor succeeds; the covariance function is [P k P* + (I - P) k (I - P)*]. *)
Theorem C27_l2_decomposition : forall grid zb b nz P k x0 x1 b0 b1 bs,
  increasing grid -> basis_init grid zb = Ok b -> is_fem_projection b nz P -> plane_continuous k -> symmetric k ->
  nshape x0 = b0 ++ [] -> nshape (second x0 x1) = b1 ++ [] -> broadcast_shapes b0 b1 = Ok bs ->
  exists g a, gal_init [] (line_kernel k) P = Ok g /\ gal_call g x0 x1 = Ok a /\
    array_is a bs (fun i => decoupled (pj_n P) (phi P) (pj_fun P) (line_kernel k) (pt x0 (operand_index b0 i)) (pt (second x0 x1) (operand_index b1 i))).
Proof.
  intros grid zb b nz P k x0 x1 b0 b1 bs Hinc Hb HP Ck Sk E0 E1 B. pose proof (l2_admissible grid zb b nz P k Hinc Hb HP Ck Sk) as HA.
  destruct (C27_constructor RF [] (line_kernel k) P _ HA) as [g [HG _]]. exists g.
  destruct (C27_decomposition RF RF_laws [] (line_kernel k) P _ g x0 x1 b0 b1 bs HA HG E0 E1 B) as [a [Ea Va]]. now exists a.
Qed.
(** Symmetric at all batches of points. *)
Theorem C27_l2_symmetric : forall grid zb b nz P k g x0 x1 b0 b1 bs,
  increasing grid -> basis_init grid zb = Ok b -> is_fem_projection b nz P -> plane_continuous k -> symmetric k ->
  gal_init [] (line_kernel k) P = Ok g -> nshape x0 = b0 ++ [] -> nshape x1 = b1 ++ [] -> broadcast_shapes b0 b1 = Ok bs ->
  exists a a', gal_call g x0 (Some x1) = Ok a /\ gal_call g x1 (Some x0) = Ok a' /\ nd_eq a a'.
Proof.
  intros grid zb b nz P k g x0 x1 b0 b1 bs Hinc Hb HP Ck Sk HG E0 E1 B.
  apply (C27_symmetric RF RF_laws [] (line_kernel k) P _ g x0 x1 b0 b1 bs (l2_admissible grid zb b nz P k Hinc Hb HP Ck Sk) HG); try assumption.
  intros i j. now apply (l2_sym grid zb b nz P k).
Qed.
(** Positive semidefinite whenever the kernel is: values of the process, coefficients of its
    projection and their combinations have non-negative variances. *)
Theorem C27_l2_psd : forall grid zb b nz P k g (K : point RF -> point RF -> R),
  increasing grid -> basis_init grid zb = Ok b -> is_fem_projection b nz P -> plane_continuous k -> symmetric k -> psd_kernel (k : R -> R -> RF) ->
  gal_init [] (line_kernel k) P = Ok g ->
  (forall p q, exists a, gal_call g (Nd [] p) (Some (Nd [] q)) = Ok a /\ nat_ a [] = K p q) ->
  psd_kernel (K : point RF -> point RF -> RF).
Proof.
  intros grid zb b nz P k g K Hinc Hb HP Ck Sk Pk HG HK. destruct (normalizer_matrix grid zb b Hinc Hb nz) as [V HV].
  apply (C27_psd [] (line_kernel k) P _ g K (l2_admissible grid zb b nz P k Hinc Hb HP Ck Sk) HG); [|exact HK].
  exact (fem_joint grid zb b nz Hinc Hb V HV P HP k Ck Sk Pk).
Qed.
(** The normalised projection applied to the new covariance function, in either argument,
    gives entry by entry the projection of the covariance function, applied once more the
    covariance matrix of the projection before. *)
Theorem C27_l2_projection : forall grid zb b P k g arg x bs,
  increasing grid -> basis_init grid zb = Ok b -> is_fem_projection b true P -> plane_continuous k -> symmetric k ->
  gal_init [] (line_kernel k) P = Ok g -> (arg < 2)%nat -> nshape x = bs ++ [] ->
  let G := decoupled (pj_n P) (phi P) (pj_fun P) (line_kernel k) in
  exists pv a c, pj_galerkin P g arg = Ok pv /\ p_call (snd pv) x = Ok a /\
    cross_array a (arg =? 0)%nat bs [] [pj_n P] (fun i _ r => pj_fun P (fun y => if (arg =? 0)%nat then G y (pt x i) else G (pt x i) y) (nth 0%nat r 0%nat)) /\
    pj_param P pv = Ok c /\
    shows c [pj_n P] [pj_n P] (fun i j => pj_fun P (fun y => pj_fun P (line_kernel k y) (nth 0%nat j 0%nat)) (nth 0%nat i 0%nat)).
Proof.
  intros grid zb b P k g arg x bs Hinc Hb HP Ck Sk HG Ha E G. pose proof (l2_admissible grid zb b true P k Hinc Hb HP Ck Sk) as HA.
  pose proof (fem_reproduces grid zb b P Hinc Hb HP) as HR. assert (EN : pj_normalized P = true) by apply HP.
  destruct arg as [|[|arg]]; [| |lia]; cbn [Nat.eqb].
  - destruct (C27_projection_first RF RF_laws [] (line_kernel k) P _ g x bs HA HR HG E) as (pv & a & H1 & H2 & H3 & H4).
    destruct (H4 EN) as (c & Hc & Sc). exists pv, a, c. auto.
  - destruct (C27_projection_second RF RF_laws [] (line_kernel k) P _ g x bs HA HR HG E) as (pv & a & H1 & H2 & H3 & H4).
    { intros i j. now apply (l2_sym grid zb b true P k). }
    destruct (H4 EN) as (c & Hc & Sc). exists pv, a, c. auto.
Qed.
(** The projection keeps its covariance and is uncorrelated with the residual. *)
Theorem C27_l2_uncorrelated : forall grid zb b P k,
  increasing grid -> basis_init grid zb = Ok b -> is_fem_projection b true P -> plane_continuous k -> symmetric k ->
  let n := pj_n P in let proj := pj_fun P in let G := decoupled n (phi P) proj (line_kernel k) in
  (forall i j, (i < n)%nat -> (j < n)%nat -> proj (fun y => proj (fun x => G x y) i) j = proj (fun x => proj (line_kernel k x) j) i) /\
  (forall i y, (i < n)%nat -> residual n (phi P) proj (fun y => proj (fun x => G x y) i) y = f0).
Proof.
  intros grid zb b P k Hinc Hb HP Ck Sk.
  exact (C27_uncorrelated RF RF_laws [] (line_kernel k) P _ (l2_admissible grid zb b true P k Hinc Hb HP Ck Sk) (fem_reproduces grid zb b P Hinc Hb HP)).
Qed.

(** ** Without normalisation *)
(** The projection applied to the covariance function returns the same parametric
    cross-covariance also if it is not normalised; then it is not the projection of the
    covariance function.  One element on [0, 2], constant kernel, at the node: the code
    gives 1, the integral is 2/3. *)
Lemma incr012 : increasing [0; 1; 2].
Proof. intros i j Hij. cbn in Hij. destruct i as [|[|[|i]]], j as [|[|[|j]]]; try lia; cbn; lra. Qed.
Lemma const_cont2 c : plane_continuous (fun _ _ => c).
Proof. intros x y. apply continuity_2d_pt_const. Qed.
Theorem C27_unnormalised_refuted : exists grid b P g pv a v,
  increasing grid /\ basis_init grid true = Ok b /\ is_fem_projection b false P /\
  gal_init [] (line_kernel (fun _ _ => 1)) P = Ok g /\ pj_galerkin P g 0 = Ok pv /\
  p_call (snd pv) (Nd [] (fun _ => 1)) = Ok a /\
  pj_fun P (fun y => decoupled (pj_n P) (phi P) (pj_fun P) (line_kernel (fun _ _ => 1)) y (fun _ => 1)) 0%nat = v /\
  nat_ a [0%nat] = 1 /\ v = 2 / 3.
Proof.
  set (grid := [0; 1; 2]). set (b := mkbasis grid true). assert (Hb : basis_init grid true = Ok b) by reflexivity. pose proof incr012 as Hinc. fold grid in Hinc.
  destruct (C27_l2_exists grid true b false Hinc Hb) as [P HP]. set (k := fun _ _ : R => 1).
  pose proof (l2_admissible grid true b false P k Hinc Hb HP (const_cont2 1) (fun _ _ => eq_refl)) as HA.
  destruct (gal_init_ok [] (line_kernel k) P (ad_fits _ _ _ _ HA)) as (c & _ & Hc & EG).
  destruct HP as (E1 & E2 & E3 & E4 & HQ). assert (EN : pj_n P = 1%nat) by (rewrite E2; reflexivity).
  assert (LH : forall f g : R -> R, (forall t, left_end grid <= t <= right_end grid -> f t = g t) -> (forall t, continuous g t) ->
    quad_rhs b f (fun i => RInt (fun t => elem_fun b i t * g t) (left_end grid) (right_end grid))) by exact (rhs_ok grid true b Hinc Hb).
  assert (P1 : forall x, pj_fun P (line_kernel k x) 0%nat = 1).
  { intros x. pose proof (HQ (line_kernel k x) _ (LH _ (fun _ => 1) (fun _ _ => eq_refl) (fun t => continuous_const 1 t))) as W. cbn [normalizer_gives] in W.
    rewrite (W 0%nat ltac:(cbn; lia)).
    assert (W' : normalizer_gives b false (constant_rhs b 1) (constant_rhs b 1)) by (intros i _; reflexivity).
    pose proof (C09_constant_unnormalised grid true b 1 _ Hinc Hb W' 0%nat ltac:(cbn; lia)) as I. apply is_RInt_unique.
    replace 1 with (constant_rhs b 1 0%nat) at 1 by (unfold constant_rhs, x_ip1, x_im1, b, grid, at_; cbn; lra).
    apply (@is_RInt_ext R_NormedModule) with (2 := I). intros t Ht. pose proof (lo_hi grid true b Hinc Hb) as L. unfold left_end, right_end in L. rewrite Rmin_left, Rmax_right in Ht by exact L.
    rewrite (elem_in grid true b Hinc Hb 0%nat t) by (try (cbn; lia); unfold left_end, right_end; lra). apply Rmult_comm. }
  assert (PP : pj_fun P (fun x => pj_fun P (line_kernel k x) 0%nat) 0%nat = 1).
  { replace (fun x => pj_fun P (line_kernel k x) 0%nat) with (line_kernel k (fun _ => 0)); [apply P1|]. apply FunctionalExtensionality.functional_extensionality. intros x. now rewrite P1. }
  assert (PHI : forall x, phi P x 0%nat = basis_eval b (x []) 0%nat) by (intros x; unfold phi; now rewrite E3).
  assert (PH1 : phi P (fun _ => 1) 0%nat = 1).
  { rewrite PHI. unfold basis_eval, hat_value, x_i, x_im1, x_ip1, left_factor, right_factor, x_i, x_im1, x_ip1, at_, b, grid. cbn [b_zero b_grid nth Nat.add].
    replace (Rltb 1 1) with false by (symmetry; unfold Rltb; destruct (Rlt_dec 1 1); [lra|reflexivity]). rewrite Rmax_right; lra. }
  exists grid, b, P. exists (mkgal [] (line_kernel k) P (PLeaf [] [] [pj_n P] false (fun x _ r => kP (pj_fun P) (line_kernel k) x (nth 0%nat r 0%nat))) c (mkpcov (pj_basis P) c)).
  set (pv := (pj_basis_id P, PParam c (ft_in (pj_basis P)) (pj_n P) (fun x k => ft_val (pj_basis P) x [k]) true)). exists pv.
  assert (SZ : size [pj_n P] = pj_n P) by (cbn; lia).
  destruct (param_shows c (ft_in (pj_basis P)) (pj_n P) (fun x k => ft_val (pj_basis P) x [k]) true (Nd [] (fun _ => 1)) [] (pj_n P) [pj_n P]
    (fun i j => PkP (pj_fun P) (line_kernel k) (nth 0%nat i 0%nat) (nth 0%nat j 0%nat))) as [a [Ea [Sa Va]]];
    [rewrite E3; reflexivity|exact Hc|exact SZ|discriminate|].
  exists a, (2 / 3).
  split; [exact Hinc|]. split; [exact Hb|]. split; [split; [exact E1|split; [exact E2|split; [exact E3|split; [exact E4|exact HQ]]]]|].
  split; [exact EG|]. split.
  { unfold pj_galerkin, pj_validate. cbn [g_in g_P Nat.ltb Nat.leb]. rewrite E1, shape_eqb_refl, Nat.eqb_refl. cbn [bind]. unfold pv. rewrite EN. reflexivity. }
  split; [exact Ea|]. split; [|split; [|reflexivity]].
  - set (f := fun y => decoupled (pj_n P) (phi P) (pj_fun P) (line_kernel k) y (fun _ => 1)).
    assert (Ef : forall t, left_end grid <= t <= right_end grid -> f (fun _ => t) = elem_fun b 0 t).
    { intros t Ht. unfold f. rewrite (decoupled_value RF_laws) with (D := cont_between grid) by apply HA. unfold gvalue, bilinear, dot, PkP, kP. rewrite EN. cbn [seq map]. unfold fsum. cbn [fold_right].
      rewrite PP, !P1, PH1, PHI. cbn [fadd fsub fmul f0 RF]. rewrite (elem_in grid true b Hinc Hb 0%nat t (Nat.lt_0_succ 0) Ht). unfold line_kernel, k.
      match goal with |- @eq _ ?a ?b => change (@eq R a b) end. ring. }
    pose proof (HQ f _ (LH (fun t => f (fun _ => t)) (elem_fun b 0) Ef (elem_cont grid true b Hinc Hb 0%nat (Nat.lt_0_succ 0)))) as W. cbn [normalizer_gives] in W.
    rewrite (W 0%nat (Nat.lt_0_succ 0)). pose proof (c09_mass grid true b Hinc Hb 0%nat 0%nat (Nat.lt_0_succ 0) (Nat.lt_0_succ 0)) as M.
    replace (2 / 3) with (mass_matrix b 0 0) by (unfold mass_matrix, diags_entry, mass_diag, x_ip1, x_im1, at_, b, grid; cbn; lra).
    apply is_RInt_unique. apply (@is_RInt_ext R_NormedModule) with (2 := M). intros t Ht.
    pose proof (lo_hi grid true b Hinc Hb) as L. unfold left_end, right_end in L. rewrite Rmin_left, Rmax_right in Ht by exact L.
    rewrite !(elem_in grid true b Hinc Hb 0%nat t) by (try (cbn; lia); unfold left_end, right_end; lra). reflexivity.
  - specialize (Va [] [] [0%nat] (List.Forall2_nil _) (List.Forall2_nil _)). cbn [app] in Va. rewrite Va.
    + rewrite EN. cbn [seq map]. unfold fsum. cbn [fold_right nth unravel]. change (size []) with 1%nat. cbn [Nat.div]. unfold PkP, kP. cbn. rewrite PP.
      change (1 * phi P (fun _ => 1) 0%nat + 0 = 1). rewrite PH1. ring.
    + rewrite EN. constructor; [lia|constructor].
Qed.
Print Assumptions C27_l2_psd.
Print Assumptions C27_l2_projection.
Print Assumptions C27_unnormalised_refuted.
