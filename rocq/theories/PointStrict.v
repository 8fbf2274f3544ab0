(** Sums of squared exponential and Matérn kernels in any number of dimensions leave no
    combination of values at different points without variance. *)
From Coq Require Import List Arith Lia Reals Lra FunctionalExtensionality.
From Verif Require Import Base NdArray FunExprModel DiffopSpec LfoModel LfoSpec LfoSmooth KernelModel KernelSpec KernelSmooth KernelProps ParamSpec ParamProofs TensorSchur PsdBase
  MaternPoly MaternProps MaternProofs MaternUni ExpQuadProofs PsdMatern PsdDiff PsdSpec PsdProps PdeCondBase PdeCondSpec SmoothSym GaussStrict MaternStrict.
Import ListNotations.
Open Scope R_scope.

(** Covariance functions on points of shape [sh]. *)
Inductive point_prior (sh : shape) : cov -> Prop :=
| PPExp e : eq_shape e = sh -> point_prior sh (CExp e)
| PPMat m p : mt_shape m = sh -> mt_nu m = HalfInt p -> point_prior sh (CMat m)
| PPScaled s k : 0 <= s -> point_prior sh k -> point_prior sh (CScaled s k)
| PPSum ks : (forall k, In k ks -> point_prior sh k) -> point_prior sh (CSum ks).
(** With a summand whose lengthscales are not zero and whose factor is positive. *)
Inductive point_strict (sh : shape) : cov -> Prop :=
| PSExp e : eq_shape e = sh -> (forall i, valid_index sh i -> eq_len e i <> 0) -> point_strict sh (CExp e)
| PSMat m p : mt_shape m = sh -> mt_nu m = HalfInt p -> (forall i, valid_index sh i -> mt_len m i <> 0) -> point_strict sh (CMat m)
| PSScaled s k : 0 < s -> point_strict sh k -> point_strict sh (CScaled s k)
| PSSum k ks : (forall k', In k' ks -> point_prior sh k') -> In k ks -> point_strict sh k -> point_strict sh (CSum ks).
Lemma point_strict_prior sh k : point_strict sh k -> point_prior sh k.
Proof.
  induction 1 as [e Hs Hl|m p Hs Hn Hl|s k Hs Hk IH|k ks Hks Hin Hk IH].
  - now constructor.
  - now apply (PPMat sh m p).
  - constructor; [lra|exact IH].
  - now constructor.
Qed.
Lemma mat_eval m p x y : mt_nu m = HalfInt p -> ceval (CMat m) x y = matern_half p (sqrt (sqdist (all_indices (mt_shape m)) (mt_scale m) x y)).
Proof.
  intros Hp. rewrite (ev_mat m p Hp), half_E. unfold Fn, sqdist, Qm. rewrite sumR_total.
  replace (total (map (fun i => (vdiff x y i * mt_scale m i) ^ 2) (all_indices (mt_shape m)))) with (total (map (fun i => (mt_scale m i * (x i - y i)) ^ 2) (all_indices (mt_shape m)))); [reflexivity|].
  apply total_ext. intros i _. unfold vdiff. ring.
Qed.
Lemma point_psd sh k : point_prior sh k -> psd_kernel (ceval k : array -> array -> RF).
Proof.
  induction 1 as [e Hs|m p Hs Hn|s k Hs Hk IH|ks Hks IH].
  - apply (psd_ext (expquad_fun (eq_shape e) (eq_len e) : array -> array -> RF)); [intros; symmetry; apply ev_spec|apply expquad_psd].
  - now apply (C56_matern_gram m p).
  - apply (psd_ext (fun x y => s * ceval k x y : car RF)); [reflexivity|]. now apply psd_scal.
  - apply (psd_ext (fun x y => sumR (fun k => ceval k x y) ks : car RF)); [reflexivity|]. now apply (psd_sumR (fun k => ceval k)).
Qed.
Lemma point_sym sh k : point_prior sh k -> forall x y, ceval k x y = ceval k y x.
Proof.
  induction 1 as [e Hs|m p Hs Hn|s k Hs Hk IH|ks Hks IH]; intros x y.
  - rewrite !ev_spec. unfold expquad_fun. f_equal. f_equal. apply total_ext. intros i _. unfold Rdiv. ring.
  - rewrite !(mat_eval m p) by assumption. now rewrite sqdist_sym.
  - cbn [ceval]. now rewrite IH.
  - cbn [ceval]. f_equal. apply map_ext_in. intros k' Hk'. now apply IH.
Qed.
Lemma form_sum {A X} (K : A -> X -> X -> R) ks l : form (fun x y => sumR (fun k => K k x y) ks) l = sumR (fun k => form (K k) l) ks.
Proof.
  unfold form. transitivity (sumR (fun p => sumR (fun k => sumR (fun q => fst p * fst q * K k (snd p) (snd q)) l) ks) l); [|apply sumR_swap].
  apply sumR_ext. intros p _. transitivity (sumR (fun q => sumR (fun k => fst p * fst q * K k (snd p) (snd q)) ks) l); [|apply sumR_swap].
  apply sumR_ext. intros q _. now rewrite sumR_scal.
Qed.
Lemma sumR_null {A} (f : A -> R) l : (forall a, In a l -> 0 <= f a) -> sumR f l = 0 -> forall a, In a l -> f a = 0.
Proof.
  induction l as [|b l IH]; intros H E a Ha; [destruct Ha|]. rewrite sumR_cons in E. pose proof (H b (or_introl eq_refl)).
  assert (0 <= sumR f l) by (apply sumR_nonneg; intros; apply H; now right).
  destruct Ha as [<-|Ha]; [lra|]. apply IH; [intros; apply H; now right|lra|exact Ha].
Qed.
Lemma point_nowhere sh k l : point_strict sh k -> form (ceval k) l = 0 -> nowhere sh l.
Proof.
  induction 1 as [e Hs Hl|m p Hs Hn Hl|s k Hs Hk IH|k ks Hks Hin Hk IH]; intros Z.
  - apply (gauss_points sh (eq_len e)); [exact Hl|]. rewrite <- Z. apply form_ext. intros x y. now rewrite ev_spec, Hs.
  - apply (matern_points sh (mt_scale m) p).
    + intros i Hi. unfold mt_scale. rewrite Hn. unfold Rdiv. apply Rmult_integral_contrapositive_currified; [|apply Rinv_neq_0_compat; now apply Hl].
      apply Rgt_not_eq. apply sqrt_lt_R0. unfold nu_val. pose proof (pos_INR p). lra.
    + rewrite <- Z. apply form_ext. intros x y. now rewrite (mat_eval m p), Hs.
  - apply IH. change (form (fun x y => s * ceval k x y) l = 0) in Z. rewrite (form_scal (ceval k)) in Z. apply Rmult_integral in Z as [Z|Z]; [lra|exact Z].
  - apply IH. change (form (fun x y => sumR (fun k => ceval k x y) ks) l = 0) in Z. rewrite (form_sum (fun k => ceval k)) in Z.
    refine (sumR_null (fun k => form (ceval k) l) ks _ Z k Hin). intros a Ha. apply (point_psd sh a (Hks a Ha) l).
Qed.
