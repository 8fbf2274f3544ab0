(** C56: covariance functions are positive semidefinite, jointly with their derivatives. *)
From Coq Require Import List Reals Lra Lia Bool Arith FunctionalExtensionality.
From Coquelicot Require Import Coquelicot.
From Verif Require Import Base NdArray PolyModel PolySpec PolyProofs PolyClassModel PolyCalc PolyProps FunExprModel DiffopModel DiffopSpec DiffopProofs
  LfoModel LfoSpec LfoSmooth LfoProofs KernelModel KernelSpec KernelCalc KernelSmooth KernelSound KernelComm KernelProps ExpQuadProofs
  MaternPoly MaternProps MaternProofs MaternUni MaternKernelProps ParamSpec ParamProofs TensorSpec TensorSchur PsdBase PsdMatern PsdDiff PsdMat PsdSpec.
Import ListNotations.
Open Scope R_scope.

(** * What a successful computation of the variance says *)
Lemma add_all_ok {A} (f : A -> result R) l v : add_all (map f l) = Ok v -> exists g, (forall a, In a l -> f a = Ok (g a)) /\ v = sumR g l.
Proof.
  revert v. induction l as [|a l IH]; cbn [map add_all]; intros v H.
  - injection H as <-. exists (fun _ => 0). split; [intros ? []|reflexivity].
  - apply bind_ok in H as (x & Hx & H). apply bind_ok in H as (y & Hy & H). injection H as <-. destruct (IH y Hy) as (g & Hg & ->).
    assert (G : forall b, In b (a :: l) -> f b = Ok (match f b with Ok r => r | Err _ => 0 end)).
    { intros b [<-|Hb]; [now rewrite Hx|]. now rewrite (Hg b Hb). }
    exists (fun b => match f b with Ok r => r | Err _ => 0 end). split; [exact G|]. rewrite sumR_cons, Hx. f_equal.
    apply sumR_ext. intros b Hb. now rewrite (Hg b Hb).
Qed.
Lemma variance_form fuel k l v (K : obs -> obs -> R) :
  (forall p q c, In p l -> In q l -> obs_cov fuel k (snd p) (snd q) = Ok c -> c = K (snd p) (snd q)) ->
  variance fuel k l = Ok v -> v = form K l.
Proof.
  intros H V. apply add_all_ok in V as (g & Hg & ->). unfold form. apply sumR_ext. intros p Hp. specialize (Hg p Hp). cbn beta in Hg.
  apply add_all_ok in Hg as (g' & Hg' & ->). apply sumR_ext. intros q Hq.
  specialize (Hg' q Hq). cbn beta in Hg'. apply bind_ok in Hg' as (c & Hc & E). injection E as <-. f_equal. now apply (H p q c Hp Hq).
Qed.
Lemma variance_ok fuel k l v p q : variance fuel k l = Ok v -> In p l -> In q l -> exists c, obs_cov fuel k (snd p) (snd q) = Ok c.
Proof.
  intros V Hp Hq. apply add_all_ok in V as (g & Hg & _). specialize (Hg p Hp). cbn beta in Hg. apply add_all_ok in Hg as (g' & Hg' & _).
  specialize (Hg' q Hq). cbn beta in Hg'. apply bind_ok in Hg' as (c & Hc & _). eauto.
Qed.

(** * Squared exponential kernels *)
Lemma expquad_psd sh l : psd_kernel (expquad_fun sh l : array -> array -> RF).
Proof.
  apply (psd_ext (fun x y => exp (- / 2 * sqdist (all_indices sh) (fun i => / l i) x y) : car RF)); [|apply gauss_psd; lra].
  intros x y. unfold expquad_fun, sqdist. rewrite sumR_total. f_equal. f_equal. apply total_ext. intros i _. unfold Rdiv. ring.
Qed.
Lemma kpos_class sh x : kpos sh x -> kclass sh (kmean x) /\ kok x.
Proof.
  induction 1 as [e E|s x Hs Hx [IH IO]|x y Hx [IHx IOx] Hy [IHy IOy]|L x OL DL Hx [IH IO]]; cbn [kmean kok].
  - split; [|exact Logic.I]. assert (F : fam sh (CExp e)) by (subst sh; now constructor). apply fam_class in F.
    replace (expquad_fun (eq_shape e) (eq_len e)) with (ceval (CExp e)); [exact F|]. extensionality x0. extensionality x1. apply ev_spec.
  - split; [|exact IO]. now apply class_scal.
  - split; [|auto]. now apply class_plus.
  - split; [|auto]. apply (lin_ksem sh 1 L DL). now apply (lin_ksem sh 0 L DL).
Qed.
Lemma kpos_psd sh x : kpos sh x -> psd_kernel (kmean x : array -> array -> RF).
Proof.
  induction 1 as [e E|s x Hs Hx IH|x y Hx IHx Hy IHy|L x OL DL Hx IH]; cbn [kmean].
  - apply expquad_psd.
  - now apply psd_scal.
  - now apply psd_add.
  - intros l. change (0 <= form (in_arg 1 (ksem L) (in_arg 0 (ksem L) (kmean x))) l).
    pose proof (ops_psd sh (kmean x) (proj1 (kpos_class sh x Hx)) IH (map (fun p => (fst p, (L, snd p))) l)) as P.
    assert (E : form (opk (kmean x)) (map (fun p => (fst p, (L, snd p))) l) = form (in_arg 1 (ksem L) (in_arg 0 (ksem L) (kmean x))) l).
    { unfold form. rewrite sumR_map. apply sumR_ext. intros p _. rewrite sumR_map. reflexivity. }
    rewrite <- E. apply P. intros p Hp. apply in_map_iff in Hp as (q & <- & _). exact DL.
Qed.
Theorem C56_expquad_gram : forall fuel sh x k, kpos sh x -> kbuild fuel x = Ok k -> k <> CNotImpl -> psd_kernel (ceval k : array -> array -> RF).
Proof.
  intros fuel sh x k H B N. destruct (kpos_class sh x H) as [_ O].
  apply (psd_ext (kmean x : array -> array -> RF)); [|now apply (kpos_psd sh)]. intros x0 x1. symmetry. now apply (C33_sound fuel x k O B N).
Qed.
(** Jointly for any finite number of observations through arbitrary operators: the variance
    of every linear combination, put together from the covariance functions the
    library returns, is non-negative. *)
Definition obs_op (o : option lfo) : lfo := match o with None => OId [] [] | Some L => L end.
Lemma obs_apply fuel x k o a r : kok x -> kbuild fuel x = Ok k -> (a = 0%nat \/ a = 1%nat) -> okop (obs_op o) -> apply_to fuel o a k = Ok r ->
  exists y, kok y /\ kbuild fuel y = Ok r /\ kmean y = in_arg a (ksem (obs_op o)) (kmean x).
Proof.
  intros O B A K H. destruct o as [L|]; cbn [apply_to obs_op] in *.
  - exists (KApply L a x). split; [cbn; auto|]. split; [cbn [kbuild]; now rewrite B|reflexivity].
  - injection H as <-. exists x. split; [exact O|]. split; [exact B|]. now destruct A as [-> | ->].
Qed.
Theorem C56_expquad : forall fuel sh x k l v, kpos sh x -> kbuild fuel x = Ok k ->
  (forall c L y, In (c, (Some L, y)) l -> okop L /\ opdom sh L) ->
  variance fuel k l = Ok v -> 0 <= v.
Proof.
  intros fuel sh x k l v H B O V. destruct (kpos_class sh x H) as [Kx Ox].
  rewrite (variance_form fuel k l v (fun p q => opk (kmean x) (obs_op (fst p), snd p) (obs_op (fst q), snd q))); [| |exact V].
  - pose proof (ops_psd sh (kmean x) Kx (kpos_psd sh x H) (map (fun p => (fst p, (obs_op (fst (snd p)), snd (snd p)))) l)) as P.
    assert (E : form (opk (kmean x)) (map (fun p => (fst p, (obs_op (fst (snd p)), snd (snd p)))) l)
      = form (fun p q : obs => opk (kmean x) (obs_op (fst p), snd p) (obs_op (fst q), snd q)) l).
    { unfold form. rewrite sumR_map. apply sumR_ext. intros p _. rewrite sumR_map. reflexivity. }
    rewrite <- E. apply P. intros p Hp. apply in_map_iff in Hp as ((c & [L|] & y) & <- & Hq); cbn [fst snd obs_op]; [|exact Logic.I]. now apply (O c L y).
  - intros (c & o & y) (c' & o' & y') r Hp Hq R. cbn [fst snd] in *. unfold obs_cov in R. cbn [fst snd] in R.
    apply bind_ok in R as (k0 & R0 & R). apply bind_ok in R as (k1 & R1 & R).
    assert (K0 : okop (obs_op o)) by (destruct o as [L|]; cbn; [exact (proj1 (O c L y Hp))|exact Logic.I]).
    assert (K1 : okop (obs_op o')) by (destruct o' as [L|]; cbn; [exact (proj1 (O c' L y' Hq))|exact Logic.I]).
    destruct (obs_apply fuel x k o 0 k0 Ox B (or_introl eq_refl) K0 R0) as (x0 & O0 & B0 & E0).
    destruct (obs_apply fuel x0 k0 o' 1 k1 O0 B0 (or_intror eq_refl) K1 R1) as (x1 & O1 & B1 & E1).
    assert (N : k1 <> CNotImpl) by (intros ->; discriminate). assert (R' : r = ceval k1 y y') by (destruct k1; try congruence; discriminate).
    rewrite R', (C33_sound fuel x1 k1 O1 B1 N). rewrite E1, E0. reflexivity.
Qed.
Print Assumptions C56_expquad_gram.
Print Assumptions C56_expquad.

(** * Matérn kernels of half-integer smoothness *)
Theorem C56_matern_gram : forall m p, mt_nu m = HalfInt p -> psd_kernel (ceval (CMat m) : array -> array -> RF).
Proof.
  intros m p Hp. apply (psd_ext (fun x y => matern_half p (sqrt (sqdist (all_indices (mt_shape m)) (mt_scale m) x y)) : car RF)); [|apply matern_psd].
  intros x y. rewrite (ev_mat m p Hp), half_E. unfold Fn, sqdist, Qm. rewrite sumR_total.
  replace (total (map (fun i => (vdiff x y i * mt_scale m i) ^ 2) (all_indices (mt_shape m)))) with (total (map (fun i => (mt_scale m i * (x i - y i)) ^ 2) (all_indices (mt_shape m)))); [reflexivity|].
  apply total_ext. intros i _. unfold vdiff. ring.
Qed.
(** The observations: values, directional derivatives, and Laplacians where the kernel is
    univariate and smooth enough. *)
Inductive mobs (m : matern) (p : nat) : obs -> Prop :=
| mobs_value x : mobs m p (None, x)
| mobs_dir v x : mobs m p (Some (ODiff (DDir (mt_shape m) v)), x)
| mobs_lap b w x : size (mt_shape m) = 1%nat -> (2 <= p)%nat -> mobs m p (Some (ODiff (DLap b (mt_shape m) w)), x).
Lemma U_cont p n u : (n <= 2 * p)%nat -> continuous (U p n) u.
Proof.
  intros H. destruct (Nat.eq_dec n (2 * p)) as [->|N].
  - unfold U. replace (Nat.even (2 * p)) with true by (symmetry; apply Nat.even_spec; now exists p).
    apply (continuous_comp Rabs (Fn p (2 * p))); [apply continuous_Rabs|]. apply (ex_derive_continuous (Fn p (2 * p))). eexists. apply Fn_derive.
  - apply (ex_derive_continuous (U p n)). eexists. apply U_derive. lia.
Qed.
Lemma U_psd p : psd_kernel (fun x y : R => U p 0 (x - y) : car RF).
Proof.
  apply (psd_ext (fun x y : R => matern_half p (sqrt (sqdist [tt] (fun _ => 1) (fun _ => x) (fun _ => y))) : car RF)).
  - intros x y. unfold U. cbn [Nat.even]. rewrite half_E. unfold Fn, sqdist, sumR. cbn [map fsum fold_right]. 
    match goal with |- context[sqrt ?z] => replace z with (Rsqr (x - y)) by (unfold Rsqr; cbn; ring) end. now rewrite sqrt_Rsqr_abs.
  - exact (psd_pull (fun a b : unit -> R => matern_half p (sqrt (sqdist [tt] (fun _ => 1) a b)) : car RF) (fun (x : R) (_ : unit) => x) (matern_psd [tt] (fun _ => 1) p)).
Qed.
Section Uni.
Variables (m : matern) (p : nat) (i0 : index).
Hypothesis Hp : mt_nu m = HalfInt p.
Hypothesis Hi : all_indices (mt_shape m) = [i0].
Definition oord (o : option lfo) : nat := match o with Some (ODiff d) => uord d | _ => 0 end.
Definition ocoef (o : option lfo) (a : nat) : R := match o with Some (ODiff d) => ucoef m i0 d a | _ => 1 end.
Lemma ocoef_sign q : mobs m p q -> ocoef (fst q) 1 = (-1) ^ oord (fst q) * ocoef (fst q) 0.
Proof. destruct 1; cbn; ring. Qed.
Lemma Hs : size (mt_shape m) = 1%nat.
Proof. rewrite <- length_all, Hi. reflexivity. Qed.
Lemma dir_pos n q c : mobs m p q -> obs_cov (S n) (CMat m) q q = Ok c -> (oord (fst q) <= p)%nat.
Proof.
  intros M H. destruct M as [x|v x|b w x S L]; cbn [fst oord uord is_lap]; [lia| |lia].
  destruct p as [|p']; [exfalso|lia]. unfold obs_cov in H. cbn [fst apply_to] in H.
  rewrite (proj1 (C35_rejects n m (DDir (mt_shape m) v) (DDir (mt_shape m) v) 0 Hs (co_dir _ _) (co_dir _ _) (or_introl eq_refl)) Hp eq_refl) in H. discriminate.
Qed.
Lemma uni_value n q r c c1 c2 : mobs m p q -> mobs m p r -> obs_cov (S n) (CMat m) q q = Ok c1 -> obs_cov (S n) (CMat m) r r = Ok c2 ->
  obs_cov (S n) (CMat m) q r = Ok c ->
  c = ocoef (fst q) 0 * ocoef (fst r) 0 * lk (U p) (oord (fst q), snd q i0 * mt_scale m i0) (oord (fst r), snd r i0 * mt_scale m i0).
Proof.
  intros Mq Mr Hq Hr H. pose proof (dir_pos n q c1 Mq Hq) as Pq. pose proof (dir_pos n r c2 Mr Hr) as Pr. clear Hq Hr c1 c2.
  assert (V : c = ocoef (fst q) 0 * ocoef (fst r) 1 * U p (oord (fst q) + oord (fst r)) (vdiff (snd q) (snd r) i0 * mt_scale m i0)).
  2: { rewrite V, (ocoef_sign r Mr). unfold lk, vdiff. cbn [fst snd]. replace (snd q i0 * mt_scale m i0 - snd r i0 * mt_scale m i0) with ((snd q i0 - snd r i0) * mt_scale m i0) by ring. ring. }
  assert (One : forall d a, closed_op (mt_shape m) d -> isarg a -> (uord d <= p)%nat -> exists k', ccall (S n) (ODiff d) (CMat m) a = Ok k' /\ uni1 m p d a k').
  { intros d a D A L. apply (uni1_call n m p d a Hp Hs D A). destruct D; cbn [uord is_lap] in L; [left; lia|now right]. }
  assert (Wrap : forall k1 c, match k1 with CNotImpl => Err TypeError | _ => Ok (ceval k1 (snd q) (snd r)) end = Ok c -> c = ceval k1 (snd q) (snd r)).
  { intros k1 c' E. destruct k1; try discriminate; injection E as <-; reflexivity. }
  assert (Dq : fst q = None \/ exists d, fst q = Some (ODiff d) /\ closed_op (mt_shape m) d) by (destruct Mq; [now left|right; eexists; split; [reflexivity|constructor]..]).
  assert (Dr : fst r = None \/ exists d, fst r = Some (ODiff d) /\ closed_op (mt_shape m) d) by (destruct Mr; [now left|right; eexists; split; [reflexivity|constructor]..]).
  assert (P2 : (2 <= p)%nat \/ forall d d', fst q = Some (ODiff d) -> fst r = Some (ODiff d') -> is_lap d = is_lap d').
  { destruct Mq; cbn [fst]; [right; congruence| |now left]. destruct Mr; cbn [fst]; [right; congruence| |now left]. right. intros d d' E E'. injection E as <-. injection E' as <-. reflexivity. }
  clear Mq Mr. unfold obs_cov in H.
  destruct Dq as [Eq|(d & Eq & D)], Dr as [Er|(d' & Er & D')]; rewrite Eq, Er in *; cbn [apply_to bind oord ocoef Nat.add] in *.
  - apply (Wrap (CMat m)) in H. rewrite H, (uev_mat m p i0 Hp Hi). unfold kU. ring.
  - destruct (One d' 1%nat D' (or_intror eq_refl) Pr) as (k' & Hk & U1). rewrite Hk in H. cbn [bind] in H. apply Wrap in H. rewrite H.
    rewrite (uni1_value m p d' 1 k' i0 Hp Hi D' (or_intror eq_refl) U1). unfold kU. ring.
  - destruct (One d 0%nat D (or_introl eq_refl) Pq) as (k' & Hk & U1). rewrite Hk in H. cbn [bind] in H. apply Wrap in H. rewrite H.
    rewrite (uni1_value m p d 0 k' i0 Hp Hi D (or_introl eq_refl) U1). unfold kU. rewrite Nat.add_0_r. ring.
  - destruct (One d 0%nat D (or_introl eq_refl) Pq) as (k' & Hk & U1). rewrite Hk in H. cbn [bind] in H.
    destruct (uni2_call n m p d d' 0 k' Hp Hs D D' (or_introl eq_refl)) as (k2 & Hk2 & U2); [destruct P2 as [P2|P2]; auto|exact U1|].
    cbn [Nat.sub] in Hk2. rewrite Hk2 in H. cbn [bind] in H. apply Wrap in H. rewrite H.
    rewrite (uni2_value m p d d' 0 k2 i0 Hp Hi D D' (or_introl eq_refl) U2). reflexivity.
Qed.
Lemma uni_psd n l v : (forall c o, In (c, o) l -> mobs m p o) -> variance (S n) (CMat m) l = Ok v -> 0 <= v.
Proof.
  intros O V.
  assert (OK : forall q, In q l -> exists c, obs_cov (S n) (CMat m) (snd q) (snd q) = Ok c) by (intros q Hq; now apply (variance_ok (S n) (CMat m) l v)).
  rewrite (variance_form (S n) (CMat m) l v (fun q r => ocoef (fst q) 0 * ocoef (fst r) 0 * lk (U p) (oord (fst q), snd q i0 * mt_scale m i0) (oord (fst r), snd r i0 * mt_scale m i0))); [| |exact V].
  - pose proof (line_psd (U p) p (fun n u H => U_derive p n H u) (U_cont p) (U_psd p)
      (map (fun q => (fst q * ocoef (fst (snd q)) 0, (oord (fst (snd q)), snd (snd q) i0 * mt_scale m i0))) l)) as P.
    assert (E : form (lk (U p)) (map (fun q => (fst q * ocoef (fst (snd q)) 0, (oord (fst (snd q)), snd (snd q) i0 * mt_scale m i0))) l)
      = form (fun q r : obs => ocoef (fst q) 0 * ocoef (fst r) 0 * lk (U p) (oord (fst q), snd q i0 * mt_scale m i0) (oord (fst r), snd r i0 * mt_scale m i0)) l).
    { unfold form. rewrite sumR_map. apply sumR_ext. intros [c [o x]] _. rewrite sumR_map. apply sumR_ext. intros [c0 [o0 x0]] _. cbn [fst snd]. ring. }
    rewrite <- E. apply P. intros q Hq. apply in_map_iff in Hq as ((c & o) & <- & Hq). cbn [fst snd]. destruct (OK _ Hq) as (c' & Hc). apply (dir_pos n o c'); [now apply (O c)|exact Hc].
  - intros (c & o) (c' & o') r Hq Hr R. cbn [snd] in *. destruct (OK _ Hq) as (c1 & H1), (OK _ Hr) as (c2 & H2). now apply (uni_value n o o' r c1 c2); [apply (O c)|apply (O c')|..].
Qed.
End Uni.

Section Any.
Variables (m : matern) (p : nat).
Hypothesis Hp : mt_nu m = HalfInt p.
Hypothesis Hs : size (mt_shape m) <> 1%nat.
Definition odir (o : option lfo) : option array := match o with Some (ODiff (DDir _ v)) => Some v | _ => None end.
Lemma mobs_any q : mobs m p q -> fst q = match odir (fst q) with None => None | Some v => Some (ODiff (DDir (mt_shape m) v)) end.
Proof. destruct 1; [reflexivity|reflexivity|contradiction]. Qed.
Lemma any_dir n v x c : obs_cov (S n) (CMat m) (Some (ODiff (DDir (mt_shape m) v)), x) (Some (ODiff (DDir (mt_shape m) v)), x) = Ok c -> (2 <= p)%nat.
Proof.
  intros H. destruct (C36_rejects n m v v 0 (or_introl eq_refl)) as (R0 & R1 & _). unfold obs_cov in H. cbn [fst snd apply_to] in H.
  destruct p as [|[|p']]; [exfalso|exfalso|lia].
  - rewrite (R0 Hp) in H. discriminate.
  - specialize (R1 Hp Hs). cbn [Nat.sub] in R1. apply bind_ok in H as (k0 & H0 & H). rewrite H0 in R1. cbn [bind] in R1. rewrite R1 in H. discriminate.
Qed.
Lemma any_psd n l v : (forall c o, In (c, o) l -> mobs m p o) -> variance (S n) (CMat m) l = Ok v -> 0 <= v.
Proof.
  intros O V.
  assert (OK : forall q, In q l -> exists c, obs_cov (S n) (CMat m) (snd q) (snd q) = Ok c) by (intros q Hq; now apply (variance_ok (S n) (CMat m) l v)).
  assert (A : (forall q, In q l -> odir (fst (snd q)) = None) \/ (2 <= p)%nat).
  { clear V v. induction l as [|[c [o x]] l' IH]; [left; intros ? []|].
    destruct (odir o) as [v|] eqn:E.
    - right. destruct (OK (c, (o, x)) (or_introl eq_refl)) as (r & Hr). cbn [snd] in Hr. pose proof (mobs_any (o, x) (O c _ (or_introl eq_refl))) as M. cbn [fst] in M. rewrite E in M.
      rewrite M in Hr. now apply (any_dir n v x r).
    - destruct IH as [IH|IH]; [intros; eapply O; right; eassumption|intros; apply OK; now right| |now right].
      left. intros q [<-|Hq]; [exact E|now apply IH]. }
  assert (Wrap : forall k1 x y c, match k1 with CNotImpl => Err TypeError | _ => Ok (ceval k1 x y) end = Ok c -> c = ceval k1 x y).
  { intros k1 x y c' E. destruct k1; try discriminate; injection E as <-; reflexivity. }
  destruct A as [A|A].
  - rewrite (variance_form (S n) (CMat m) l v (fun q r => ceval (CMat m) (snd q) (snd r))); [| |exact V].
    + exact (psd_pull (ceval (CMat m) : array -> array -> RF) (fun q : obs => snd q) (C56_matern_gram m p Hp) l).
    + intros (c & o) (c' & o') r Hq Hr R. cbn [snd] in *. unfold obs_cov in R.
      pose proof (mobs_any o (O c _ Hq)) as Mo. pose proof (mobs_any o' (O c' _ Hr)) as Mo'. pose proof (A _ Hq) as Ao. pose proof (A _ Hr) as Ao'. cbn [snd] in Ao, Ao'.
      rewrite Ao in Mo. rewrite Ao' in Mo'. rewrite Mo, Mo' in R. cbn [apply_to bind] in R. now apply (Wrap (CMat m)) in R.
  - destruct (div1_ok p ltac:(lia)) as (q1 & Hq1). destruct (proj2 (npd_ok p) ltac:(lia)) as (npd & Hn). destruct (proj2 (pd_ok p npd Hn) A) as (pd2 & Hd).
    rewrite (variance_form (S n) (CMat m) l v (fun q r => mk m p q1 pd2 (odir (fst q), snd q) (odir (fst r), snd r))); [| |exact V].
    + exact (psd_pull (mk m p q1 pd2 : option array * array -> option array * array -> RF) (fun q : obs => (odir (fst q), snd q)) (multi_psd m p q1 npd pd2 Hq1 Hn Hd) l).
    + intros (c & o) (c' & o') r Iq Ir R. cbn [snd] in *. unfold obs_cov in R.
      pose proof (mobs_any o (O c _ Iq)) as Mo. pose proof (mobs_any o' (O c' _ Ir)) as Mo'. destruct o as [o x], o' as [o' y]. cbn [fst snd] in *.
      destruct (odir o) as [u|], (odir o') as [w|]; subst o o'; cbn [apply_to] in R; unfold mk; cbn [fst snd odir].
      * rewrite (matdir_call n m p u 0 Hp (or_introl eq_refl)) in R. unfold mk_matdir in R. rewrite Hp, Hq1 in R. cbn [bind] in R.
        cbn [ccall cov_diffop_call] in R. unfold cov_dir_call in R. rewrite validate_fits in R by (unfold isarg; auto). cbn [bind] in R. unfold univariate in R.
        apply Nat.eqb_neq in Hs. rewrite Hs in R. cbn [is0 is1 Nat.eqb negb andb] in R. unfold mk_matdirdir in R. rewrite Hp, Hn in R. cbn [bind] in R. rewrite Hd in R. cbn [bind] in R.
        apply (Wrap (CMatDirDir m u w npd pd2)) in R. rewrite R, (ev_matdirdir m p q1 Hq1 npd pd2 Hn). f_equal. f_equal. f_equal. unfold Sd. apply total_ext. intros i _. ring.
      * rewrite (matdir_call n m p u 0 Hp (or_introl eq_refl)) in R. unfold mk_matdir in R. rewrite Hp, Hq1 in R. cbn [bind] in R. apply (Wrap (CMatDir m u (is0 0) q1)) in R.
        rewrite R, (ev_matdir m q1). cbn [is0 Nat.eqb]. ring.
      * cbn [bind] in R. rewrite (matdir_call n m p w 1 Hp (or_intror eq_refl)) in R. unfold mk_matdir in R. rewrite Hp, Hq1 in R. cbn [bind] in R. apply (Wrap (CMatDir m w (is0 1) q1)) in R.
        rewrite R, (ev_matdir m q1). cbn [is0 Nat.eqb]. ring.
      * cbn [bind] in R. apply (Wrap (CMat m)) in R. rewrite R. apply (ev_mat m p Hp).
Qed.
End Any.
Theorem C56_matern : forall n m p l v, mt_nu m = HalfInt p -> (forall c o, In (c, o) l -> mobs m p o) ->
  variance (S n) (CMat m) l = Ok v -> 0 <= v.
Proof.
  intros n m p l v Hp O V. destruct (Nat.eq_dec (size (mt_shape m)) 1) as [E|E].
  - destruct (uni_index m E) as (i0 & Hi). now apply (uni_psd m p i0 Hp Hi n l).
  - now apply (any_psd m p Hp E n l).
Qed.
Print Assumptions C56_matern_gram.
Print Assumptions C56_matern.

(** * Arithmetic with covariance functions *)
Theorem C56_add : forall k0 k1 k, psd_kernel (ceval k0 : array -> array -> RF) -> psd_kernel (ceval k1 : array -> array -> RF) ->
  cov_add k0 k1 = Ok k -> psd_kernel (ceval k : array -> array -> RF).
Proof.
  intros k0 k1 k P0 P1 H. unfold cov_add, mk_covsum in H. destruct (negb _); [discriminate|]. destruct (forallb _ _); [|discriminate]. injection H as <-.
  apply (psd_ext (fun x y => ceval k0 x y + ceval k1 x y : car RF)); [|now apply psd_add].
  intros x y. cbn [ceval map rsum fold_right]. match goal with |- ?a = ?b => change (@eq R a b) end. cbn. ring.
Qed.
Theorem C56_scale : forall s k k', psd_kernel (ceval k : array -> array -> RF) -> cov_scale s k = Ok k' ->
  (0 <= s -> psd_kernel (ceval k' : array -> array -> RF)) /\
  (s < 0 -> (exists x, ceval k x x <> 0) -> exists x, ceval k' x x < 0).
Proof.
  intros s k k' P H. assert (E : forall x y, ceval k' x y = s * ceval k x y).
  { intros x y. destruct k; cbn [cov_scale] in H; try discriminate; injection H as <-; cbn [ceval]; try reflexivity. ring. }
  split.
  - intros Hs. apply (psd_ext (fun x y => s * ceval k x y : car RF)); [intros; now rewrite E|now apply psd_scal].
  - intros Hs (x & N). exists x. rewrite E. pose proof (psd_diag (ceval k) x P). nra.
Qed.
Print Assumptions C56_add.
Print Assumptions C56_scale.

(** * Where the claim fails: two Laplacians of the Matérn 3/2 kernel have a negative variance *)
Theorem C56_matern_three_halves_refuted : forall n m i0 b w x, mt_nu m = HalfInt 1 -> all_indices (mt_shape m) = [i0] -> 0 < mt_len m i0 -> 0 < w i0 ->
  exists v, variance (S n) (CMat m) [(1, (Some (ODiff (DLap b (mt_shape m) w)), x))] = Ok v /\ v < 0.
Proof.
  intros n m i0 b w x Hp Hi Hl Hw.
  destruct (C35_nonsmooth_refuted n m i0 b b w w 0 Hi (or_introl eq_refl) Hl) as [_ R]. destruct (R Hp Hw Hw) as (c & c' & H & H' & _ & N).
  assert (NN : c' <> CNotImpl) by (intros ->; specialize (N x); cbn in N; lra).
  exists (1 * 1 * ceval c' x x + 0 + 0). split; [|specialize (N x); lra].
  unfold variance, obs_cov. cbn [map add_all fst snd apply_to]. rewrite H. cbn [bind Nat.sub] in H' |- *. rewrite H'. cbn [bind].
  destruct c'; try congruence; reflexivity.
Qed.
Print Assumptions C56_matern_three_halves_refuted.

(** * Examples *)
Definition ex_x : array := fun i => match i with [0%nat] => 1 | _ => 3 end.
(** The prior [2 * k], observed through its value, a scaled directional derivative and a
    second directional derivative at two points. *)
Definition ex_prior : kexpr := KScale 2 (KExp ex_e).
Definition ex_obs : list (R * obs) :=
  [(1, (None, ex_x)); (-2, (Some (OScaled 3 (ODiff (DDir [2%nat] ex_dir))), ex_w)); (5, (Some (ODiff (DDir [2%nat] ex_w)), ex_x))].
Example C56_expquad_example : kpos [2%nat] ex_prior /\ (exists k, kbuild 4 ex_prior = Ok k /\ exists v, variance 4 k ex_obs = Ok v) /\
  (forall c L y, In (c, (Some L, y)) ex_obs -> okop L /\ opdom [2%nat] L).
Proof.
  split; [constructor; [lra|now constructor]|]. split.
  - eexists. split; [reflexivity|]. eexists. reflexivity.
  - intros c L y [H|[H|[H|[]]]]; try discriminate; injection H as _ <- _; cbn; auto.
Qed.
Example C56_both_example : kpos [2%nat] (KApply (ODiff (DDir [2%nat] ex_dir)) 1 (KApply (ODiff (DDir [2%nat] ex_dir)) 0 (KExp ex_e))) /\
  exists k, kbuild 4 (KApply (ODiff (DDir [2%nat] ex_dir)) 1 (KApply (ODiff (DDir [2%nat] ex_dir)) 0 (KExp ex_e))) = Ok k /\ k <> CNotImpl.
Proof. split; [apply kpos_apply; [exact Logic.I|reflexivity|now constructor]|]. eexists. split; [reflexivity|discriminate]. Qed.
(** A value and a Laplacian of a univariate kernel, and a value and a directional derivative
    of a kernel on the plane, both of smoothness 5/2. *)
Definition ex_m1 : matern := Matern [] (fun _ => 1) (HalfInt 2).
Definition ex_m2 : matern := Matern [2%nat] (fun _ => 1) (HalfInt 2).
Example C56_matern_example :
  (forall c o, In (c, o) [(1, (None, ex_x)); (-1, (Some (ODiff (DLap true [] ex_w)), ex_w))] -> mobs ex_m1 2 o) /\
  (forall c o, In (c, o) [(1, (None, ex_x)); (-1, (Some (ODiff (DDir [2%nat] ex_w)), ex_w))] -> mobs ex_m2 2 o) /\
  (exists v, variance 1 (CMat ex_m1) [(1, (None, ex_x)); (-1, (Some (ODiff (DLap true [] ex_w)), ex_w))] = Ok v) /\
  (exists v, variance 1 (CMat ex_m2) [(1, (None, ex_x)); (-1, (Some (ODiff (DDir [2%nat] ex_w)), ex_w))] = Ok v).
Proof.
  split; [|split; [|split]].
  - intros c o [H|[H|[]]]; injection H as _ <-; constructor; [reflexivity|lia].
  - intros c o [H|[H|[]]]; injection H as _ <-; constructor.
  - eexists. reflexivity.
  - destruct (div1_ok 2 ltac:(lia)) as (q1 & Hq). destruct (proj2 (npd_ok 2) ltac:(lia)) as (npd & Hn). destruct (proj2 (pd_ok 2 npd Hn) ltac:(lia)) as (pd2 & Hd).
    assert (C : forall v a, isarg a -> ccall 1 (ODiff (DDir [2%nat] v)) (CMat ex_m2) a = Ok (CMatDir ex_m2 v (is0 a) q1)).
    { intros v a A. change [2%nat] with (mt_shape ex_m2). rewrite (matdir_call 0 ex_m2 2 v a eq_refl A). unfold mk_matdir. cbn [mt_nu ex_m2]. now rewrite Hq. }
    unfold variance, obs_cov. cbn [map add_all fst snd apply_to bind]. rewrite (C _ 0%nat (or_introl eq_refl)), (C _ 1%nat (or_intror eq_refl)). cbn [bind].
    assert (D : ccall 1 (ODiff (DDir [2%nat] ex_w)) (CMatDir ex_m2 ex_w (is0 0) q1) 1 = Ok (CMatDirDir ex_m2 ex_w ex_w npd pd2)).
    { cbn [ccall cov_diffop_call]. unfold cov_dir_call. rewrite validate_fits by (unfold isarg; auto). cbn [bind].
      replace (univariate ex_m2) with false by reflexivity. cbn [is0 is1 Nat.eqb negb andb]. unfold mk_matdirdir. cbn [mt_nu ex_m2]. rewrite Hn. cbn [bind]. rewrite Hd. reflexivity. }
    rewrite D. eexists. reflexivity.
Qed.
