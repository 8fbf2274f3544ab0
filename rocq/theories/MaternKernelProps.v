(** C35, C36, C45: derivatives of the Matérn covariance functions in one or both arguments. *)
From Coq Require Import List Reals Lra Lia Bool Arith ZArith FunctionalExtensionality.
From Coquelicot Require Import Coquelicot.
From Verif Require Import Base NdArray PolyModel PolySpec PolyProofs PolyClassModel PolyCalc PolyProps FunExprModel DiffopModel DiffopSpec DiffopProofs
  LfoModel LfoSpec LfoSmooth LfoProofs LfoSound LfoTotal
  KernelModel KernelSpec KernelCalc KernelSound KernelProps MaternPoly MaternProps MaternProofs MaternUni.
Import ListNotations.
Open Scope R_scope.

Lemma uni_index m : size (mt_shape m) = 1%nat -> exists i0, all_indices (mt_shape m) = [i0].
Proof. intros H. rewrite <- length_all in H. destruct (all_indices (mt_shape m)) as [|i [|? ?]]; try discriminate. eauto. Qed.
Lemma div1_ok p : (1 <= p)%nat -> exists q, py_floordiv (matern_poly p 1) 1 = Ok q.
Proof. intros H. apply (odd_div p 0). lia. Qed.
Lemma div1_err p : (p < 1)%nat -> py_floordiv (matern_poly p 1) 1 = Err ValueError.
Proof. intros H. pose proof (proj1 (C34_divisions p) 0%nat) as D. destruct (Nat.ltb_spec 0 p); [lia|]. exact D. Qed.
Lemma div3_ok p : (2 <= p)%nat -> exists q, py_floordiv (matern_poly p 3) 1 = Ok q.
Proof. intros H. apply (odd_div p 1). lia. Qed.
Lemma div3_err p : (p < 2)%nat -> py_floordiv (matern_poly p 3) 1 = Err ValueError.
Proof. intros H. pose proof (proj1 (C34_divisions p) 1%nat) as D. destruct (Nat.ltb_spec 1 p); [lia|]. exact D. Qed.
Lemma spec_mat m p : mt_nu m = HalfInt p -> ceval (CMat m) = matern_fun (mt_shape m) (mt_len m) p.
Proof. intros H. extensionality x. extensionality y. now apply ev_mat_spec. Qed.
Lemma derivative_fun a d k k' : derivative_of a d k k' -> k' = in_arg a (dsem d) k.
Proof. intros (_ & _ & H). extensionality x. extensionality y. apply H. Qed.
Lemma derivative_ext a d k1 k2 k' : (forall x y, k1 x y = k2 x y) -> derivative_of a d k1 k' -> derivative_of a d k2 k'.
Proof. intros H. assert (k1 = k2) as -> by (extensionality x; extensionality y; apply H). trivial. Qed.

(** ** Univariate kernels *)
(** One operator. *)
Definition uni1 (m : matern) (p : nat) (d : dop) (a : nat) (c : cov) : Prop :=
  match d with
  | DDir _ v => exists q, py_floordiv (matern_poly p 1) 1 = Ok q /\ c = CMatDir m v (is0 a) q
  | DLap _ _ w => c = CUMatLap m w (is0 a) (matern_poly p 2)
  | _ => False
  end.
Lemma uni1_call n m p d a : mt_nu m = HalfInt p -> size (mt_shape m) = 1%nat -> closed_op (mt_shape m) d -> isarg a ->
  ((1 <= p)%nat \/ is_lap d = true) -> exists c, ccall (S n) (ODiff d) (CMat m) a = Ok c /\ uni1 m p d a c.
Proof.
  intros Hp Hs D A X. destruct D as [v|b w]; cbn [ccall cov_diffop_call]; unfold cov_dir_call, cov_lap_call; rewrite validate_fits by auto; cbn [bind].
  - rewrite Hp. unfold mk_matdir. rewrite Hp. destruct X as [X|X]; [|discriminate]. destruct (div1_ok p X) as (q & Hq). rewrite Hq. cbn [bind].
    eexists. split; [reflexivity|]. exists q. auto.
  - unfold mk_umatlap, univariate. rewrite Hs, Hp. cbn [Nat.eqb negb]. eexists. split; reflexivity.
Qed.
Definition uord (d : dop) : nat := if is_lap d then 2 else 1.
Definition ucoef (m : matern) (i0 : index) (d : dop) (a : nat) : R :=
  match d with DDir _ v => dsgn a * (v i0 * mt_scale m i0) | DLap _ _ w => w i0 * mt_scale m i0 ^ 2 | _ => 0 end.
Lemma uni1_value m p d a c i0 : mt_nu m = HalfInt p -> all_indices (mt_shape m) = [i0] -> closed_op (mt_shape m) d -> isarg a ->
  uni1 m p d a c -> forall x y, ceval c x y = kU m p i0 (uord d) (ucoef m i0 d a) x y.
Proof.
  intros Hp Hi D A H x y. destruct D as [v|b w]; cbn [uni1] in H.
  - destruct H as (q & Hq & ->). rewrite (uev_dir m p i0 Hi v _ q x y Hq). cbn [uord is_lap ucoef]. do 2 f_equal. destruct A as [-> | ->]; reflexivity.
  - subst c. now rewrite (uev_lap m p i0 Hi).
Qed.
Lemma uni1_deriv m p d a c i0 : mt_nu m = HalfInt p -> all_indices (mt_shape m) = [i0] -> closed_op (mt_shape m) d -> isarg a -> (1 <= p)%nat ->
  uni1 m p d a c -> derivative_of a d (matern_fun (mt_shape m) (mt_len m) p) (ceval c).
Proof.
  intros Hp Hi D A P H. rewrite <- (spec_mat m p Hp).
  apply derivative_ext with (k1 := kU m p i0 0 1); [intros x y; symmetry; now apply uev_mat|].
  pose proof (uni1_value m p d a c i0 Hp Hi D A H) as V. destruct D as [v|b w]; cbn [uord is_lap ucoef] in V.
  - apply (uni_dir m p i0 Hi 0); [lia|]. intros x y. rewrite V. f_equal. ring.
  - apply (uni_lap m p i0 Hi 0); [lia|]. intros x y. rewrite V. f_equal. ring.
Qed.
Theorem C35_one_operator : forall n m p d a,
  mt_nu m = HalfInt p -> size (mt_shape m) = 1%nat -> (1 <= p)%nat -> closed_op (mt_shape m) d -> a = 0%nat \/ a = 1%nat ->
  exists c, ccall (S n) (ODiff d) (CMat m) a = Ok c /\
    derivative_of a d (matern_fun (mt_shape m) (mt_len m) p) (ceval c).
Proof.
  intros n m p d a Hp Hs P D A. destruct (uni_index m Hs) as (i0 & Hi). destruct (uni1_call n m p d a Hp Hs D A (or_introl P)) as (c & Hc & U).
  exists c. split; [exact Hc|]. now apply (uni1_deriv m p d a c i0).
Qed.
Print Assumptions C35_one_operator.

(** Two operators on different arguments. *)
Definition uni2 (m : matern) (p : nat) (d d' : dop) (a : nat) (c : cov) : Prop :=
  match d, d' with
  | DDir _ v, DDir _ v' => c = if is0 a then CUMatDirDir m v v' (py_neg (matern_poly p 2)) else CUMatDirDir m v' v (py_neg (matern_poly p 2))
  | DDir _ v, DLap _ _ w => exists q, py_floordiv (matern_poly p 3) 1 = Ok q /\ c = CUMatDirLap m v w (is1 a) q
  | DLap _ _ w, DDir _ v => exists q, py_floordiv (matern_poly p 3) 1 = Ok q /\ c = CUMatDirLap m v w (is0 a) q
  | DLap _ _ w, DLap _ _ w' => c = if is0 a then CUMatLapLap m w w' (matern_poly p 4) else CUMatLapLap m w' w (matern_poly p 4)
  | _, _ => False
  end.
Lemma uni2_call n m p d d' a c : mt_nu m = HalfInt p -> size (mt_shape m) = 1%nat -> closed_op (mt_shape m) d -> closed_op (mt_shape m) d' -> isarg a ->
  ((2 <= p)%nat \/ is_lap d = is_lap d') -> uni1 m p d a c ->
  exists c', ccall (S n) (ODiff d') c (1 - a) = Ok c' /\ uni2 m p d d' a c'.
Proof.
  intros Hp Hs D D' A X H.
  assert (Hu : univariate m = true) by (unfold univariate; now rewrite Hs).
  assert (A' : isarg (1 - a)) by (destruct A as [-> | ->]; unfold isarg; auto).
  destruct D as [v|b w]; cbn [uni1] in H; [destruct H as (q & Hq & ->)|subst c];
  destruct D' as [v'|b' w']; cbn [ccall cov_diffop_call]; unfold cov_dir_call, cov_lap_call; rewrite validate_fits by auto; cbn [bind]; rewrite ?Hu; cbn [negb];
  cbn [uni2].
  - destruct A as [-> | ->]; cbn [is0 is1 Nat.eqb Nat.sub negb andb]; unfold mk_umatdirdir; rewrite Hu, Hp; cbn [negb]; eexists; split; reflexivity.
  - destruct X as [X|X]; [|discriminate]. destruct (div3_ok p X) as (q3 & H3).
    destruct A as [-> | ->]; cbn [is0 is1 Nat.eqb Nat.sub negb andb orb]; unfold mk_umatdirlap; rewrite Hu, Hp, H3; cbn [negb bind]; eexists; (split; [reflexivity|]); exists q3; auto.
  - destruct X as [X|X]; [|discriminate]. destruct (div3_ok p X) as (q3 & H3).
    destruct A as [-> | ->]; cbn [is0 is1 Nat.eqb Nat.sub negb andb orb]; unfold mk_umatdirlap; rewrite Hu, Hp, H3; cbn [negb bind]; eexists; (split; [reflexivity|]); exists q3; auto.
  - destruct A as [-> | ->]; cbn [is0 is1 Nat.eqb Nat.sub negb andb]; unfold mk_umatlaplap; rewrite Hu, Hp; cbn [negb]; eexists; split; reflexivity.
Qed.
Lemma uni2_value m p d d' a c i0 : mt_nu m = HalfInt p -> all_indices (mt_shape m) = [i0] -> closed_op (mt_shape m) d -> closed_op (mt_shape m) d' -> isarg a ->
  uni2 m p d d' a c -> forall x y, ceval c x y = kU m p i0 (uord d + uord d') (ucoef m i0 d a * ucoef m i0 d' (1 - a)) x y.
Proof.
  intros Hp Hi D D' A H x y. destruct D as [v|b w], D' as [v'|b' w']; cbn [uni2] in H; cbn [uord is_lap ucoef Nat.add].
  - subst c. destruct A as [-> | ->]; cbn [is0 Nat.eqb]; rewrite (uev_dirdir m p i0 Hi); f_equal; cbn [dsgn Nat.sub]; ring.
  - destruct H as (q & Hq & ->). rewrite (uev_dirlap m p i0 Hi _ _ _ q x y Hq). f_equal. destruct A as [-> | ->]; cbn [is0 is1 Nat.eqb dsgn Nat.sub]; ring.
  - destruct H as (q & Hq & ->). rewrite (uev_dirlap m p i0 Hi _ _ _ q x y Hq). f_equal. destruct A as [-> | ->]; cbn [is0 is1 Nat.eqb dsgn Nat.sub]; ring.
  - subst c. destruct A as [-> | ->]; cbn [is0 Nat.eqb]; rewrite (uev_laplap m p i0 Hi); f_equal; ring.
Qed.
Lemma uni2_deriv m p d d' a c c' i0 : mt_nu m = HalfInt p -> all_indices (mt_shape m) = [i0] -> closed_op (mt_shape m) d -> closed_op (mt_shape m) d' -> isarg a ->
  (uord d + uord d' <= 2 * p)%nat -> uni1 m p d a c -> uni2 m p d d' a c' -> derivative_of (1 - a) d' (ceval c) (ceval c').
Proof.
  intros Hp Hi D D' A P H H'. pose proof (uni1_value m p d a c i0 Hp Hi D A H) as V. pose proof (uni2_value m p d d' a c' i0 Hp Hi D D' A H') as V'.
  apply derivative_ext with (k1 := kU m p i0 (uord d) (ucoef m i0 d a)); [intros x y; now rewrite V|].
  destruct D' as [v|b w]; cbn [uord is_lap ucoef] in V', P; rewrite (Nat.add_comm (uord d)) in V'.
  - apply (uni_dir m p i0 Hi); [lia|]. intros x y. rewrite V'. cbn [Nat.add]. f_equal. ring.
  - apply (uni_lap m p i0 Hi); [lia|]. intros x y. rewrite V'. cbn [Nat.add]. f_equal. ring.
Qed.
(** A directional derivative or Laplacian in each argument: for [nu >= 5/2] all four
    combinations, for [nu = 3/2] the two directional derivatives. *)
Theorem C35_both_arguments : forall n m p d d' a,
  mt_nu m = HalfInt p -> size (mt_shape m) = 1%nat -> closed_op (mt_shape m) d -> closed_op (mt_shape m) d' -> a = 0%nat \/ a = 1%nat ->
  (2 <= p)%nat \/ (p = 1%nat /\ is_lap d = false /\ is_lap d' = false) ->
  exists c, bind (ccall (S n) (ODiff d) (CMat m) a) (fun k => ccall (S n) (ODiff d') k (1 - a)) = Ok c /\
    derivative_of (1 - a) d' (in_arg a (dsem d) (matern_fun (mt_shape m) (mt_len m) p)) (ceval c).
Proof.
  intros n m p d d' a Hp Hs D D' A P. destruct (uni_index m Hs) as (i0 & Hi).
  destruct (uni1_call n m p d a Hp Hs D A) as (c & Hc & U); [left; lia|].
  destruct (uni2_call n m p d d' a c Hp Hs D D' A) as (c' & Hc' & U'); [destruct P as [P|(_ & -> & ->)]; auto|exact U|].
  exists c'. rewrite Hc. cbn [bind]. split; [exact Hc'|].
  rewrite <- (derivative_fun a d _ (ceval c)); [|apply (uni1_deriv m p d a c i0); auto; lia].
  apply (uni2_deriv m p d d' a c c' i0); auto. destruct P as [P|(-> & Ld & Ld')].
  - unfold uord. destruct (is_lap d), (is_lap d'); lia.
  - unfold uord. rewrite Ld, Ld'. lia.
Qed.
Print Assumptions C35_both_arguments.
(** The requests that are refused: a directional derivative for [nu = 1/2], and a directional
    derivative with a Laplacian for [nu = 3/2]. *)
Theorem C35_rejects : forall n m d d' a, size (mt_shape m) = 1%nat -> closed_op (mt_shape m) d -> closed_op (mt_shape m) d' -> a = 0%nat \/ a = 1%nat ->
  (mt_nu m = HalfInt 0 -> is_lap d = false -> ccall (S n) (ODiff d) (CMat m) a = Err ValueError) /\
  (mt_nu m = HalfInt 1 -> is_lap d <> is_lap d' ->
     bind (ccall (S n) (ODiff d) (CMat m) a) (fun k => ccall (S n) (ODiff d') k (1 - a)) = Err ValueError).
Proof.
  intros n m d d' a Hs D D' A. split.
  - intros Hp L. destruct D as [v|]; [|discriminate]. cbn [ccall cov_diffop_call]. unfold cov_dir_call. rewrite validate_fits by auto. cbn [bind].
    unfold mk_matdir. rewrite Hp, div1_err by lia. reflexivity.
  - intros Hp L. destruct (uni1_call n m 1 d a Hp Hs D A) as (c & Hc & U); [left; lia|]. rewrite Hc. cbn [bind].
    assert (Hu : univariate m = true) by (unfold univariate; now rewrite Hs).
    assert (A' : isarg (1 - a)) by (destruct A as [-> | ->]; unfold isarg; auto).
    destruct D as [v|b w], D' as [v'|b' w']; cbn in L; try congruence; cbn [uni1] in U; [destruct U as (q & Hq & ->)|subst c];
    cbn [ccall cov_diffop_call]; unfold cov_dir_call, cov_lap_call; rewrite validate_fits by auto; cbn [bind]; rewrite ?Hu; cbn [negb];
    destruct A as [-> | ->]; cbn [is0 is1 Nat.eqb Nat.sub negb andb orb]; unfold mk_umatdirlap; rewrite Hu, Hp, div3_err by lia; reflexivity.
Qed.
Print Assumptions C35_rejects.
(** The requests that are answered although the derivative does not exist: a Laplacian for
    [nu = 1/2], and two Laplacians for [nu = 3/2]; in the second case the
    reported variance is negative. *)
Theorem C35_nonsmooth_refuted : forall n m i0 b b' w w' a, all_indices (mt_shape m) = [i0] -> a = 0%nat \/ a = 1%nat -> 0 < mt_len m i0 ->
  (mt_nu m = HalfInt 0 -> exists c, ccall (S n) (ODiff (DLap b (mt_shape m) w)) (CMat m) a = Ok c /\
     ~ derivative_of a (DLap b (mt_shape m) w) (matern_fun (mt_shape m) (mt_len m) 0) (ceval c)) /\
  (mt_nu m = HalfInt 1 -> 0 < w i0 -> 0 < w' i0 ->
   exists c c', ccall (S n) (ODiff (DLap b (mt_shape m) w)) (CMat m) a = Ok c /\ ccall (S n) (ODiff (DLap b' (mt_shape m) w')) c (1 - a) = Ok c' /\
     ~ derivative_of (1 - a) (DLap b' (mt_shape m) w') (ceval c) (ceval c') /\
     forall x, ceval c' x x < 0).
Proof.
  intros n m i0 b b' w w' a Hi A Hl.
  assert (Hs : size (mt_shape m) = 1%nat) by (rewrite <- length_all, Hi; reflexivity).
  assert (S0 : forall p, mt_nu m = HalfInt p -> 0 < mt_scale m i0).
  { intros p Hp. unfold mt_scale. rewrite Hp. cbn [nu_val]. apply Rdiv_lt_0_compat; [|exact Hl]. apply sqrt_lt_R0. pose proof (pos_INR p). lra. }
  split.
  - intros Hp. specialize (S0 0%nat Hp). destruct (uni1_call n m 0 (DLap b (mt_shape m) w) a Hp Hs (co_lap _ b w) A (or_intror eq_refl)) as (c & Hc & U). exists c. split; [exact Hc|].
    intros (Df & _ & _). cbn [d_dom] in Df. rewrite <- (spec_mat m 0 Hp) in Df.
    apply (uni_kink m 0 i0 Hi 1 a); [lra|lra|]. replace (kU m 0 i0 (2 * 0) 1) with (ceval (CMat m)); [exact Df|].
    extensionality x. extensionality y. now apply uev_mat.
  - intros Hp Pw Pw'. specialize (S0 1%nat Hp). destruct (uni1_call n m 1 (DLap b (mt_shape m) w) a Hp Hs (co_lap _ b w) A (or_intror eq_refl)) as (c & Hc & U).
    destruct (uni2_call n m 1 (DLap b (mt_shape m) w) (DLap b' (mt_shape m) w') a c Hp Hs (co_lap _ b w) (co_lap _ b' w') A (or_intror eq_refl) U) as (c' & Hc' & U').
    exists c, c'. split; [exact Hc|]. split; [exact Hc'|].
    pose proof (uni1_value m 1 _ a c i0 Hp Hi (co_lap _ b w) A U) as V.
    pose proof (uni2_value m 1 _ _ a c' i0 Hp Hi (co_lap _ b w) (co_lap _ b' w') A U') as V'. cbn [uord is_lap ucoef Nat.add] in V, V'.
    assert (P2 : 0 < mt_scale m i0 ^ 2) by (apply pow_lt; lra). split.
    + intros (Df & _ & _). cbn [d_dom] in Df. apply (uni_kink m 1 i0 Hi (w i0 * mt_scale m i0 ^ 2) (1 - a)).
      * apply Rgt_not_eq, Rmult_lt_0_compat; assumption.
      * lra.
      * replace (kU m 1 i0 (2 * 1) (w i0 * mt_scale m i0 ^ 2)) with (ceval c); [exact Df|]. extensionality x. extensionality y. apply V.
    + intros x. rewrite V'. unfold kU, MaternUni.U. cbn [Nat.even]. unfold vdiff. rewrite Rminus_eq_0, Rmult_0_l, Rabs_R0, Fn_zero.
      assert (M : mc 1 4 0 = -3). { rewrite !mc_S, !mc_0. unfold c0. cbn. field. }
      rewrite M. assert (0 < w i0 * mt_scale m i0 ^ 2 * (w' i0 * mt_scale m i0 ^ 2)); [|lra].
      apply Rmult_lt_0_compat; apply Rmult_lt_0_compat; assumption.
Qed.
Print Assumptions C35_nonsmooth_refuted.

(** Partial derivatives of kernels on scalars are the directional derivative and the
    Laplacian; inputs of shape [(1,)] are refused although the kernel is univariate. *)
Theorem C35_partial_derivative : forall n m al a, a = 0%nat \/ a = 1%nat -> mt_shape m = [] -> mi_shape al = [] ->
  (mi_order al = 1%nat -> ccall (S n) (ODiff (DPartial al)) (CMat m) a = ccall n (ODiff (DDir [] (fun _ => 1))) (CMat m) a) /\
  (mi_order al = 2%nat -> ccall (S n) (ODiff (DPartial al)) (CMat m) a = ccall n (ODiff (DLap false [] (fun _ => 1))) (CMat m) a) /\
  (mi_wf al -> (mi_order al = 1%nat -> dsem (DPartial al) = dsem (DDir [] (fun _ => 1))) /\
     (mi_order al = 2%nat -> dsem (DPartial al) = dsem (DLap false [] (fun _ => 1)))).
Proof.
  intros n m al a A Hm Ha. split; [|split; [|intros W; split]].
  1, 2: intros O; cbn [ccall cov_diffop_call]; unfold cov_partial_call; cbn [pd_registered]; unfold partial_derivative_fallback;
    rewrite validate_fits by (cbn [c_shape]; congruence || auto); cbn [bind]; rewrite O, Ha; reflexivity.
  - intros O. extensionality f. extensionality x. cbn [dsem]. unfold pderiv. rewrite Ha. unfold all_indices. cbn.
    rewrite (shape0_order al W Ha), O. unfold total. cbn. ring.
  - intros O. extensionality f. extensionality x. cbn [dsem]. unfold pderiv. rewrite Ha. unfold all_indices. cbn.
    rewrite (shape0_order al W Ha), O. unfold total. cbn. ring.
Qed.
Theorem C35_partial_derivative_refuted : forall n m al a, a = 0%nat \/ a = 1%nat -> mt_shape m = [1%nat] -> mi_shape al = [1%nat] -> mi_order al = 1%nat ->
  ccall (S (S n)) (ODiff (DPartial al)) (CMat m) a = Err ValueError.
Proof.
  intros n m al a A Hm Ha O. cbn [ccall cov_diffop_call]. unfold cov_partial_call. cbn [pd_registered]. unfold partial_derivative_fallback.
  rewrite validate_fits by (cbn [c_shape]; congruence || auto). cbn [bind]. rewrite O, Ha. cbn [size fold_right Nat.mul Nat.add Nat.eqb andb].
  cbn [cov_diffop_call]. unfold cov_dir_call, validate. cbn [c_shape]. rewrite Hm. destruct A as [-> | ->]; reflexivity.
Qed.

(** Calling with one argument gives the value at coincident points. *)
Definition mat_obj (c : cov) : Prop :=
  match c with
  | CMat _ => True
  | CMatDir _ _ _ q | CUMatDirDir _ _ _ q | CUMatLap _ _ _ q | CUMatLapLap _ _ _ q | CUMatDirLap _ _ _ _ q => py_valid q
  | CMatDirDir _ _ _ q q' => py_valid q /\ py_valid q'
  | _ => False
  end.
Lemma coeff0_eval q : py_valid q -> py_eval q 0 = coeff0 q.
Proof.
  intros V. unfold py_eval, coeff0. pose proof (horner_correct RF RF_laws (float_coeffs q) 0 V) as H. etransitivity; [exact H|].
  unfold py_valid in V. clear H. destruct (float_coeffs q) as [|c cs]; [now elim V|]. unfold power_sum. cbn [nth].
  pose proof (ps_as_sum RF RF_laws (c :: cs) 0 (length (c :: cs)) (le_n _)) as P. etransitivity; [exact P|]. clear. cbn [length seq map].
  unfold fsum. cbn [fold_right nth]. 
  assert (Z : forall l : list nat, (forall i, In i l -> i <> 0%nat) -> fold_right (fadd (f := RF)) f0 (map (fun i => fmul (f := RF) (nth i (c :: cs) f0) (fpow (F := RF) 0 i)) l) = 0).
  { induction l as [|i l IH]; intros H; [reflexivity|]. cbn [map fold_right]. rewrite IH by (intros; apply H; now right). rewrite fpow_R.
    assert (i <> 0)%nat by (apply H; now left). destruct i; [congruence|]. cbn [pow]. cbn. match goal with |- @eq _ ?a ?b => change (@eq R a b) end. 
    match goal with |- ?a * (0 * ?b) + 0 = 0 => generalize a b end. intros. ring. }
  rewrite Z; [cbn; match goal with |- @eq _ ?a ?b => change (@eq R a b) end; ring|]. intros i Hi. apply in_seq in Hi. lia.
Qed.
Lemma dist_self m x : mt_dist m x x = 0.
Proof. unfold mt_dist, bnorm, bnorm_sq. rewrite bsum0; [apply sqrt_0|]. intros i. unfold mt_diffs, vdiff. ring. Qed.
Lemma mat_diag c x : mat_obj c -> cnone c x = ceval c x x.
Proof.
  destruct c; cbn [mat_obj]; intros V; try contradiction; cbn [cnone ceval].
  - unfold matern_eval. now rewrite dist_self.
  - unfold matdir_eval. rewrite (bsum0 (mt_shape m)); [ring|]. intros i. unfold mt_diffs, vdiff. ring.
  - unfold matdirdir_eval. rewrite dist_self, Ropp_0, exp_0, <- coeff0_eval by apply V. rewrite (bsum0 (mt_shape m) (fun i => mt_scale m i * dir0 i * _)); [ring|]. intros i. unfold mt_diffs, vdiff. ring.
  - unfold umatdirdir_eval. rewrite dist_self, Ropp_0, exp_0, <- coeff0_eval by apply V. ring.
  - unfold umatlap_eval. now rewrite dist_self.
  - unfold umatlaplap_eval. now rewrite dist_self.
  - unfold umatdirlap_eval. rewrite (bsum0 (mt_shape m)); [ring|]. intros i. unfold mt_diffs, vdiff. ring.
Qed.
Lemma floordiv_valid p n q : py_valid p -> py_floordiv p n = Ok q -> py_valid q.
Proof. intros V H. destruct (py_floordiv_spec p n V) as (S & _). now destruct (S q H). Qed.
Lemma mk_valid m c v v' w w' r : mk_matdir m v r = Ok c \/ mk_matdirdir m v v' = Ok c \/ mk_umatdirdir m v v' = Ok c \/ mk_umatlap m w r = Ok c \/
  mk_umatlaplap m w w' = Ok c \/ mk_umatdirlap m v w r = Ok c -> mat_obj c.
Proof.
  unfold mk_matdir, mk_matdirdir, mk_umatdirdir, mk_umatlap, mk_umatlaplap, mk_umatdirlap.
  destruct (univariate m), (mt_nu m) as [p|]; cbn [negb]; intros [H|[H|[H|[H|[H|H]]]]]; try discriminate;
  repeat (apply bind_ok in H; let q := fresh "q" in let Hq := fresh "Hq" in destruct H as (q & Hq & H); apply floordiv_valid in Hq; [|first [apply matern_valid|apply py_valid_neg, matern_valid|apply py_valid_add]]);
  (match type of H with Ok ?t = Ok _ => assert (HH : t = c) by congruence end); clear H; subst c; cbn [mat_obj]; auto using matern_valid, py_valid_neg.
Qed.
Theorem C35_one_argument : forall n m d a d' a' c c', size (mt_shape m) = 1%nat -> (exists p, mt_nu m = HalfInt p) ->
  closed_op (mt_shape m) d -> closed_op (mt_shape m) d' -> (a = 0%nat \/ a = 1%nat) -> a' = (1 - a)%nat ->
  ccall (S n) (ODiff d) (CMat m) a = Ok c -> ccall (S n) (ODiff d') c a' = Ok c' ->
  forall x, cnone (CMat m) x = ceval (CMat m) x x /\ cnone c x = ceval c x x /\ cnone c' x = ceval c' x x.
Proof.
  intros n m d a d' a' c c' Hs (p & Hp) D D' A -> H H' x. split; [now apply mat_diag|].
  assert (Hu : univariate m = true) by (unfold univariate; now rewrite Hs).
  assert (O : mat_obj c /\ ((exists v q, c = CMatDir m v (is0 a) q) \/ (exists w q, c = CUMatLap m w (is0 a) q))).
  { destruct D as [v|b w]; cbn [ccall cov_diffop_call] in H; unfold cov_dir_call, cov_lap_call in H; rewrite validate_fits in H by auto; cbn [bind] in H; rewrite ?Hu, Hp in H.
    - split; [apply (mk_valid m c v v v v (is0 a)); auto|]. left. unfold mk_matdir in H. rewrite Hp in H. apply bind_ok in H as (q & _ & H). injection H as <-. eauto.
    - split; [apply (mk_valid m c w w w w (is0 a)); auto|]. right. unfold mk_umatlap in H. rewrite Hp, Hu in H. injection H as <-. eauto. }
  destruct O as [V O]. split; [now apply mat_diag|]. apply mat_diag.
  assert (A' : isarg (1 - a)) by (destruct A as [-> | ->]; unfold isarg; auto).
  destruct O as [(v & q & ->)|(w & q & ->)], D' as [v'|b w']; cbn [ccall cov_diffop_call] in H'; unfold cov_dir_call, cov_lap_call in H'; rewrite validate_fits in H' by auto; cbn [bind] in H';
  rewrite ?Hu in H'; destruct A as [-> | ->]; cbn [is0 is1 Nat.eqb Nat.sub negb andb orb] in H'; eapply mk_valid; eauto 8.
  Unshelve. all: exact (fun _ => 0) || exact true.
Qed.
Print Assumptions C35_one_argument.

(** * C36: any dimension *)
Lemma matdir_call n m p v a : mt_nu m = HalfInt p -> isarg a -> ccall (S n) (ODiff (DDir (mt_shape m) v)) (CMat m) a = mk_matdir m v (is0 a).
Proof. intros Hp A. cbn [ccall cov_diffop_call]. unfold cov_dir_call. rewrite validate_fits by auto. cbn [bind]. now rewrite Hp. Qed.
Theorem C36_directional : forall n m p v a, mt_nu m = HalfInt p -> (1 <= p)%nat -> a = 0%nat \/ a = 1%nat ->
  exists c, ccall (S n) (ODiff (DDir (mt_shape m) v)) (CMat m) a = Ok c /\
    derivative_of a (DDir (mt_shape m) v) (matern_fun (mt_shape m) (mt_len m) p) (ceval c).
Proof.
  intros n m p v a Hp P A. rewrite (matdir_call n m p v a Hp A). unfold mk_matdir. rewrite Hp. destruct (div1_ok p P) as (q & Hq). rewrite Hq. cbn [bind].
  eexists. split; [reflexivity|]. rewrite <- (spec_mat m p Hp). now apply (matdir_deriv m p Hp q Hq).
Qed.
Theorem C36_mixed : forall n m p v v' a, mt_nu m = HalfInt p -> (2 <= p)%nat -> a = 0%nat \/ a = 1%nat ->
  exists c, bind (ccall (S n) (ODiff (DDir (mt_shape m) v)) (CMat m) a) (fun k => ccall (S n) (ODiff (DDir (mt_shape m) v')) k (1 - a)) = Ok c /\
    derivative_of (1 - a) (DDir (mt_shape m) v') (in_arg a (dsem (DDir (mt_shape m) v)) (matern_fun (mt_shape m) (mt_len m) p)) (ceval c).
Proof.
  intros n m p v v' a Hp P A. destruct (size (mt_shape m) =? 1)%nat eqn:Hs.
  { apply Nat.eqb_eq in Hs. apply (C35_both_arguments n m p); auto; constructor. }
  rewrite (matdir_call n m p v a Hp A). unfold mk_matdir. rewrite Hp. destruct (div1_ok p ltac:(lia)) as (q & Hq). rewrite Hq. cbn [bind].
  pose proof (matdir_deriv m p Hp q Hq v a) as D1. rewrite <- (spec_mat m p Hp), <- (derivative_fun _ _ _ _ D1).
  destruct (proj2 (npd_ok p) ltac:(lia)) as (npd & Hn). destruct (proj2 (pd_ok p npd Hn) P) as (pd2 & Hd).
  assert (A' : isarg (1 - a)) by (destruct A as [-> | ->]; unfold isarg; auto).
  cbn [ccall cov_diffop_call]. unfold cov_dir_call. rewrite validate_fits by auto. cbn [bind]. unfold univariate. rewrite Hs.
  pose proof (matdirdir_deriv m p q Hq npd pd2 Hn Hd v' v (1 - a)) as D2.
  destruct A as [-> | ->]; cbn [is0 is1 Nat.eqb Nat.sub negb andb] in *; unfold mk_matdirdir; rewrite Hp, Hn; cbn [bind]; rewrite Hd; cbn [bind];
    (eexists; split; [reflexivity|exact D2]).
Qed.
(** [nu = 1/2] has no directional derivative, [nu = 3/2] no mixed one in more than one
    dimension; other smoothnesses raise TypeError. *)
Theorem C36_rejects : forall n m v v' a, a = 0%nat \/ a = 1%nat ->
  (mt_nu m = HalfInt 0 -> ccall (S n) (ODiff (DDir (mt_shape m) v)) (CMat m) a = Err ValueError) /\
  (mt_nu m = HalfInt 1 -> size (mt_shape m) <> 1%nat ->
     bind (ccall (S n) (ODiff (DDir (mt_shape m) v)) (CMat m) a) (fun k => ccall (S n) (ODiff (DDir (mt_shape m) v')) k (1 - a)) = Err ValueError) /\
  (forall nu f, mt_nu m = OtherNu nu f -> ccall (S n) (ODiff (DDir (mt_shape m) v)) (CMat m) a = Err TypeError) /\
  (forall sh, sh <> mt_shape m -> ccall (S n) (ODiff (DDir sh v)) (CMat m) a = Err ValueError).
Proof.
  intros n m v v' a A. split; [|split; [|split]].
  - intros Hp. rewrite (matdir_call n m 0 v a Hp A). unfold mk_matdir. now rewrite Hp, div1_err by lia.
  - intros Hp Hs. rewrite (matdir_call n m 1 v a Hp A). destruct (div1_ok 1 ltac:(lia)) as (q & Hq).
    assert (D : forall d0 d1, mk_matdirdir m d0 d1 = Err ValueError) by (intros d0 d1; pose proof (proj1 (proj2 (proj2 (C34_divisions 1))) m d0 d1 Hp) as D; exact D).
    unfold mk_matdir. rewrite Hp, Hq. cbn [bind].
    assert (A' : isarg (1 - a)) by (destruct A as [-> | ->]; unfold isarg; auto).
    cbn [ccall cov_diffop_call]. unfold cov_dir_call. rewrite validate_fits by auto. cbn [bind]. unfold univariate. apply Nat.eqb_neq in Hs. rewrite Hs.
    destruct A as [-> | ->]; cbn [is0 is1 Nat.eqb Nat.sub negb andb]; apply D.
  - intros nu f Hp. cbn [ccall cov_diffop_call]. unfold cov_dir_call. rewrite validate_fits by auto. cbn [bind]. now rewrite Hp.
  - intros sh N. cbn [ccall cov_diffop_call]. unfold cov_dir_call. unfold validate. destruct A as [-> | ->]; cbn [Nat.eqb orb negb c_shape];
    (destruct (shape_eqb_spec (mt_shape m) sh); [congruence|reflexivity]).
Qed.
(** A weighted Laplacian in more than one dimension raises TypeError. *)
Theorem C36_laplacian_refuted : forall n m b w a, a = 0%nat \/ a = 1%nat -> size (mt_shape m) <> 1%nat -> (length (mt_shape m) <= 1)%nat -> (exists i, valid_index (mt_shape m) i /\ w i <> 0) ->
  ccall (5 + n) (ODiff (DLap b (mt_shape m) w)) (CMat m) a = Err TypeError.
Proof.
  intros n m b d a A S L T.
  change (5 + n)%nat with (Datatypes.S (4 + n)). cbn [ccall cov_diffop_call]. unfold cov_lap_call.
  rewrite validate_fits by auto. cbn [bind]. unfold univariate. pose proof S as S'. apply Nat.eqb_neq in S'. rewrite S'.
  unfold cov_lindiffop_call. cbn [is_cov negb d_dom]. rewrite validate_fits by (unfold isarg; auto). cbn [bind].
  unfold cov_call_no_jax. cbn [cov_base_call or_else is_partial].
  destruct (to_sum_form (DLap b (mt_shape m) d) eq_refl (conj L T)) as (y0 & a0 & inn & -> & Hinn). cbn [bind map].
  destruct (Hinn a0 y0 (or_introl eq_refl)) as (Hs & _ & O). cbn [d_dom] in Hs.
  change (4 + n)%nat with (Datatypes.S (3 + n)). cbn [ccall cov_sum_call fold_left].
  change (3 + n)%nat with (Datatypes.S (2 + n)). cbn [ccall cov_sum_call].
  change (2 + n)%nat with (Datatypes.S (1 + n)). cbn [ccall].
  change (1 + n)%nat with (Datatypes.S n). cbn [ccall cov_diffop_call]. unfold cov_partial_call at 1. cbn [pd_registered]. unfold partial_derivative_fallback.
  rewrite validate_fits by (unfold isarg; auto). cbn [bind]. rewrite Hs. apply Nat.eqb_neq in O. rewrite O, S'. cbn [andb bind cov_scale].
  rewrite (fold_err (fun a' M => bind (ccall (Datatypes.S (Datatypes.S n)) M (CMat m) a) (fun c => cov_add a' c))). reflexivity.
Qed.
Print Assumptions C36_directional.
Print Assumptions C36_mixed.
Print Assumptions C36_rejects.
Print Assumptions C36_laplacian_refuted.

(** A second directional derivative with respect to the same argument raises TypeError in
    more than one dimension; on scalars a second operator of either kind on the same
    argument never returns. *)
Theorem C36_repeated_refuted : forall n m p v d a, mt_nu m = HalfInt p -> (1 <= p)%nat -> a = 0%nat \/ a = 1%nat ->
  (exists i, valid_index (mt_shape m) i /\ d i <> 0) -> size (mt_shape m) <> 1%nat ->
  bind (ccall (S n) (ODiff (DDir (mt_shape m) v)) (CMat m) a) (fun k => ccall (5 + n) (ODiff (DDir (mt_shape m) d)) k a) = Err TypeError.
Proof.
  intros n m p v d a Hp P A T S. rewrite (matdir_call n m p v a Hp A). unfold mk_matdir. rewrite Hp. destruct (div1_ok p P) as (q & Hq). rewrite Hq. cbn [bind].
  assert (C : forall k, c_shape k = mt_shape m -> is_cov k = true -> pd_registered k = true -> (forall L n', cov_base_call (ccall n') L k a = Err NotImplementedError) ->
    cov_lindiffop_call (ccall (4 + n)) (DDir (mt_shape m) d) k a = Err TypeError).
  { intros k Hk Ik Rk Bk. unfold cov_lindiffop_call. rewrite Ik. cbn [negb d_dom]. rewrite validate_fits by (unfold isarg; auto). cbn [bind].
    unfold cov_call_no_jax. rewrite Bk. cbn [or_else is_partial].
    destruct (to_sum_form (DDir (mt_shape m) d) eq_refl T) as (y0 & a0 & inn & -> & Hinn). cbn [bind map].
    destruct (Hinn a0 y0 (or_introl eq_refl)) as (Hs & _ & O). cbn [d_dom] in Hs.
    change (4 + n)%nat with (Datatypes.S (3 + n)). cbn [ccall cov_sum_call fold_left].
    change (3 + n)%nat with (Datatypes.S (2 + n)). cbn [ccall cov_sum_call].
    change (2 + n)%nat with (Datatypes.S (1 + n)). cbn [ccall].
    change (1 + n)%nat with (Datatypes.S n). cbn [ccall cov_diffop_call]. unfold cov_partial_call at 1. rewrite Rk. unfold partial_derivative_fallback.
    rewrite validate_fits by (unfold isarg; congruence || auto). cbn [bind]. rewrite Hs. apply Nat.eqb_neq in O, S. rewrite O, S. cbn [andb bind cov_scale].
    rewrite (fold_err (fun a' M => bind (ccall (Datatypes.S (Datatypes.S n)) M k a) (fun b => cov_add a' b))). reflexivity. }
  change (5 + n)%nat with (Datatypes.S (4 + n)). cbn [ccall cov_diffop_call]. unfold cov_dir_call.
  rewrite validate_fits by (unfold isarg; auto). cbn [bind].
  destruct A as [-> | ->]; cbn [is0 is1 Nat.eqb negb andb]; apply C; reflexivity.
Qed.
Lemma to_sum_lap_scalar b w : w [] <> 0 -> to_sum_no_jax (DLap b [] w) = Ok (OSum [OSum [OScaled (w []) (ODiff (DPartialNoJax (unit_mi [] [] 2)))]]).
Proof.
  intros N. unfold to_sum_no_jax. cbn [d_coeffs]. destruct (axis_ok RF RF_laws [] w 2) as (c & Hc & _); [discriminate|].
  unfold weighted_laplacian. rewrite Hc. cbn [bind]. apply mk_coeffs_inv in Hc as ->. cbn [c_dict]. rewrite axis_list by discriminate.
  cbn [mapM]. unfold axis_items, all_indices. cbn [flat_map app].
  replace (feqb (f := RF) (w []) f0) with false by (cbn; destruct (Req_EM_T (w []) 0); congruence). reflexivity.
Qed.
Definition scalar_op (d : dop) : Prop := (exists v, d = DDir [] v /\ v [] <> 0) \/ (exists b w, d = DLap b [] w /\ w [] <> 0).
Theorem C35_repeated_refuted : forall n n' m p d d' a c, mt_nu m = HalfInt p -> mt_shape m = [] -> a = 0%nat \/ a = 1%nat ->
  closed_op [] d -> scalar_op d' -> ccall (S n) (ODiff d) (CMat m) a = Ok c -> ccall n' (ODiff d') c a = Err RecursionError.
Proof.
  intros n n' m p d d' a c Hp Hm A D D' H.
  assert (Hu : univariate m = true) by (unfold univariate; now rewrite Hm).
  assert (O : (exists v q, c = CMatDir m v (is0 a) q) \/ (exists w q, c = CUMatLap m w (is0 a) q)).
  { destruct D as [v|b w]; cbn [ccall cov_diffop_call] in H; unfold cov_dir_call, cov_lap_call in H; rewrite validate_fits in H by (auto; now rewrite <- Hm); cbn [bind] in H; rewrite ?Hu, Hp in H.
    - left. unfold mk_matdir in H. rewrite Hp in H. apply bind_ok in H as (q & _ & H). injection H as <-. eauto.
    - right. unfold mk_umatlap in H. rewrite Hp, Hu in H. injection H as <-. eauto. }
  assert (Sh : c_shape c = []) by (destruct O as [(v & q & ->)|(w & q & ->)]; exact Hm).
  assert (Ic : is_cov c = true /\ pd_registered c = true /\ forall L k, cov_base_call (ccall k) L c a = Err NotImplementedError)
    by (destruct O as [(v & q & ->)|(w & q & ->)]; repeat split).
  destruct Ic as (Ic & Rc & Bc).
  assert (G : forall k e, scalar_op e -> cov_diffop_call (ccall k) e c a = cov_lindiffop_call (ccall k) e c a).
  { intros k e [(v & -> & _)|(b & w & -> & _)]; cbn [cov_diffop_call]; unfold cov_dir_call, cov_lap_call;
    destruct O as [(v' & q & ->)|(w' & q & ->)]; rewrite validate_fits by (auto; congruence); cbn [bind];
    rewrite ?Hu; destruct A as [-> | ->]; reflexivity. }
  revert d' D'. induction n' as [n' IH] using (well_founded_induction lt_wf). intros d' D'.
  destruct n' as [|k]; [reflexivity|]. cbn [ccall]. rewrite (G k d' D').
  unfold cov_lindiffop_call. rewrite Ic. cbn [negb].
  assert (Dd : d_dom d' = []) by (destruct D' as [(v & -> & _)|(b & w & -> & _)]; reflexivity).
  rewrite Dd, validate_fits by (unfold isarg; auto). cbn [bind]. unfold cov_call_no_jax. rewrite Bc. cbn [or_else].
  assert (Pd : is_partial d' = false) by (destruct D' as [(v & -> & _)|(b & w & -> & _)]; reflexivity). rewrite Pd.
  assert (R : forall e o, ((e = DDir [] (fun _ => 1) /\ o = 1%nat) \/ (e = DLap false [] (fun _ => 1) /\ o = 2%nat)) ->
    forall y, or_else (ccall k (OSum [OSum [OScaled y (ODiff (DPartialNoJax (unit_mi [] [] o)))]]) c a) (cov_jax d' c a) = Err RecursionError).
  { intros e o E y.
    destruct k as [|k]; [reflexivity|]. cbn [ccall cov_sum_call fold_left].
    destruct k as [|k]; [reflexivity|]. cbn [ccall cov_sum_call fold_left].
    destruct k as [|k]; [reflexivity|]. cbn [ccall].
    destruct k as [|k]; [reflexivity|]. cbn [ccall cov_diffop_call]. unfold cov_partial_call. rewrite Rc. unfold partial_derivative_fallback.
    assert (Se : scalar_op e) by (destruct E as [[-> _]|[-> _]]; [left|right]; repeat eexists; lra).
    pose proof (IH k ltac:(lia) e Se) as I.
    destruct E as [[-> ->]|[-> ->]]; (rewrite validate_fits by (unfold isarg; auto); cbn [bind]; unfold unit_mi, mi_order; cbn; rewrite I; reflexivity). }
  destruct D' as [(v & -> & N)|(b & w & -> & N)].
  - rewrite to_sum_scalar by exact N. cbn [bind]. now apply (R (DDir [] (fun _ => 1))); left.
  - rewrite to_sum_lap_scalar by exact N. cbn [bind]. now apply (R (DLap false [] (fun _ => 1))); right.
Qed.
Print Assumptions C36_repeated_refuted.
Print Assumptions C35_repeated_refuted.

(** * C45: the order of the operators *)
Theorem C45_matern : forall n m p d0 d1, mt_nu m = HalfInt p -> closed_op (mt_shape m) d0 -> closed_op (mt_shape m) d1 ->
  size (mt_shape m) = 1%nat \/ (is_lap d0 = false /\ is_lap d1 = false) ->
  both n (CMat m) d0 d1 = both' n (CMat m) d0 d1.
Proof.
  intros n m p d0 d1 Hp D0 D1 X. unfold both, both'.
  assert (Y : univariate m = true \/ (is_lap d0 = false /\ is_lap d1 = false)) by (destruct X as [X|X]; [left; unfold univariate; now rewrite X|auto]).
  destruct (le_lt_dec 1 p) as [P|P]; [destruct (div1_ok p P) as (q & Hq)|pose proof (div1_err p P) as Hq];
  destruct D0 as [v|b w], D1 as [v'|b' w']; cbn [ccall cov_diffop_call]; unfold cov_dir_call, cov_lap_call, mk_matdir, mk_umatlap;
  (rewrite !validate_fits by (unfold isarg; auto)); cbn [bind]; rewrite ?Hp, ?Hq; cbn [bind];
  try reflexivity;
  try (destruct Y as [Y|[Y Y']]; [|discriminate]; rewrite ?Y; cbn [negb bind]);
  try (rewrite !validate_fits by (unfold isarg; auto)); cbn [bind is0 is1 Nat.eqb negb andb orb]; try reflexivity.
  all: unfold mk_umatdirlap; rewrite ?Y, Hp; cbn [negb]; try reflexivity; rewrite div3_err by lia; reflexivity.
Qed.
Print Assumptions C45_matern.

(** * Examples *)
Definition ex_m (p : nat) : matern := Matern [] (fun _ => 2) (HalfInt p).
Definition ex_m2 (p : nat) : matern := Matern [2%nat] (fun i => match i with [0%nat] => 1 | _ => 2 end) (HalfInt p).
Example C35_example : size (mt_shape (ex_m 1)) = 1%nat /\ closed_op (mt_shape (ex_m 1)) (DLap false [] (fun _ => 3)) /\ all_indices (mt_shape (ex_m 0)) = [[]] /\ 0 < mt_len (ex_m 0) [].
Proof. repeat split; try constructor; cbn; lra. Qed.
Example C36_example : exists c, bind (ccall 1 (ODiff (DDir [2%nat] ex_dir)) (CMat (ex_m2 2)) 0) (fun k => ccall 1 (ODiff (DDir [2%nat] ex_w)) k 1) = Ok c.
Proof. destruct (C36_mixed 0 (ex_m2 2) 2 ex_dir ex_w 0 eq_refl ltac:(lia) ltac:(auto)) as (c & H & _). exists c. exact H. Qed.
Example C45_matern_example : exists c, both 0 (CMat (ex_m2 2)) (DDir [2%nat] ex_dir) (DDir [2%nat] ex_w) = Ok c.
Proof. exact C36_example. Qed.
