(** C67: automatic differentiation of the covariance functions and functions. *)
From Coq Require Import List Reals Bool Arith ZArith Lra Lia FunctionalExtensionality.
From Coquelicot Require Import Coquelicot.
From Verif Require Import Base NdArray PolyModel PolyClassModel PolyProofs PolyCalc FunExprModel DiffopModel DiffopProofs LfoModel KernelModel MaternPoly MaternProofs MaternUni
  WendlandModel WendlandSpec WendlandProofs WendlandProps PdeModel AdModel AdSpec AdProofs AdKernels.
Import ListNotations.
Open Scope R_scope.

(** * Values *)
Definition on (k : array -> array -> R) : points -> R := fun e => k (fst e) (snd e).
Lemma expquad_val c : (fun e => pval e (expquad_prog c)) = on (expquad_eval c).
Proof. extensionality e. cbn [expquad_prog pval]. now rewrite sqdist_val. Qed.
Lemma matern_val m p : matern_prog m = Ok p -> (fun e => pval e p) = on (matern_eval m).
Proof.
  unfold matern_prog. destruct (mt_nu m) as [n|] eqn:E; [|discriminate]. intros [= <-]. extensionality e. cbn [pval]. rewrite horner_val, dist_val.
  unfold on, matern_eval. rewrite E. reflexivity.
Qed.
Lemma wendland_val w : (fun e => pval e (wendland_prog w)) = on (wendland_eval w).
Proof.
  extensionality e. cbn [wendland_prog pval]. rewrite horner_val, dist_val. unfold on, wendland_eval, wendland_function, Rleb, py_eval.
  destruct (Rle_dec _ 1); reflexivity.
Qed.
Theorem C67_values : forall x0 x1,
  (forall c, run (x0, x1) (expquad_prog c) = Fin (expquad_eval c x0 x1)) /\
  (forall m p, matern_prog m = Ok p -> run (x0, x1) p = Fin (matern_eval m x0 x1)) /\
  (forall w, run (x0, x1) (wendland_prog w) = Fin (wendland_eval w x0 x1)).
Proof.
  intros x0 x1. split; [|split].
  - intros c. rewrite run_reg; [|exact (sqdist_reg (x0, x1) _ _)]. f_equal. exact (f_equal (fun f => f (x0, x1)) (expquad_val c)).
  - intros m p. unfold matern_prog. destruct (mt_nu m) as [n|] eqn:E; [|discriminate]. intros [= <-]. cbn [run]. rewrite (horner_run _ _ _ _ (dist_run (x0, x1) _ _)), dist_run.
    cbn [eneg eexp emul]. unfold matern_eval. rewrite E. reflexivity.
  - intros w. cbn [wendland_prog run]. rewrite (horner_run _ _ _ _ (dist_run (x0, x1) _ _)), dist_run. cbn [ele1]. unfold wendland_eval, wendland_function, py_eval. cbn [fst snd].
    destruct (Rleb _ 1); reflexivity.
Qed.
Print Assumptions C67_values.

(** * Arithmetic and programs *)
(** Sums, products and opposites are those of the extended reals, "not a number" where these are
    undefined; quotients and powers with negative exponents reduce to them, except at zero. *)
Theorem C67_arithmetic : forall x y : Rbar,
  eadd (fl (Some x)) (fl (Some y)) = fl (Rbar_plus' x y) /\ emul (fl (Some x)) (fl (Some y)) = fl (Rbar_mult' x y) /\ eneg (fl (Some x)) = fl (Some (Rbar_opp x)) /\
  (y <> Finite 0 -> ediv (fl (Some x)) (fl (Some y)) = match x, y with Finite _, Finite _ | p_infty, Finite _ | m_infty, Finite _ => fl (Rbar_mult' x (Rbar_inv y)) | Finite _, _ => Fin 0 | _, _ => NaN end) /\
  ediv (fl (Some x)) (Fin 0) = fl (Rbar_mult' x p_infty) /\
  (forall n, epow (fl (Some x)) (Z.of_nat (S n)) = emul (fl (Some x)) (epow (fl (Some x)) (Z.of_nat n)) /\ epow (fl (Some x)) 0 = Fin 1 /\
             epow (fl (Some x)) (- Z.of_nat (S n)) = ediv (Fin 1) (epow (fl (Some x)) (Z.of_nat (S n)))) /\
  (ele1 (fl (Some x)) = true <-> Rbar_le x (Finite 1)).
Proof.
  intros x y.
  assert (I : forall r, inf_of r = fl (Rbar_mult' (Finite r) p_infty)).
  { intros r. unfold inf_of. cbn [Rbar_mult']. destruct (Reqb_spec r 0) as [->|N].
    - destruct (Rle_dec 0 0); [|lra]. destruct (Rle_lt_or_eq_dec 0 0 r); [lra|reflexivity].
    - unfold Rleb. destruct (Rle_dec 0 r) as [H|H]; [|reflexivity]. destruct (Rle_lt_or_eq_dec 0 r H); [reflexivity|lra]. }
  assert (J : forall r, inf_of (- r) = fl (Rbar_mult' (Finite r) m_infty)).
  { intros r. unfold inf_of. cbn [Rbar_mult']. destruct (Reqb_spec (- r) 0) as [Z|N].
    - destruct (Rle_dec 0 r) as [H|H]; [|lra]. destruct (Rle_lt_or_eq_dec 0 r H); [lra|reflexivity].
    - unfold Rleb. destruct (Rle_dec 0 (- r)) as [H|H], (Rle_dec 0 r) as [H'|H']; try lra; try (exfalso; apply N; lra); [reflexivity|]. destruct (Rle_lt_or_eq_dec 0 r H'); [reflexivity|lra]. }
  split; [destruct x, y; reflexivity|]. split.
  { destruct x, y; cbn [fl emul]; rewrite ?J, ?I; reflexivity. }
  split; [destruct x; reflexivity|]. split.
  { intros Hy. destruct y as [s| |]; [|destruct x; reflexivity|destruct x; reflexivity]. assert (N : s <> 0) by (intros ->; now apply Hy).
    assert (P : 0 < s -> 0 < / s) by apply Rinv_0_lt_compat. assert (M : s < 0 -> / s < 0) by apply Rinv_lt_0_compat.
    destruct x; cbn [fl ediv Rbar_mult' Rbar_inv].
    - destruct (Reqb_spec s 0); [contradiction|reflexivity].
    - unfold Rleb. destruct (Rdichotomy _ _ N) as [D|D]; [specialize (M D)|specialize (P D)]; destruct (Rle_dec 0 s) as [H0|H0]; destruct (Rle_dec 0 (/ s)) as [H1|H1]; try (exfalso; lra); try reflexivity. destruct (Rle_lt_or_eq_dec 0 (/ s) H1); [reflexivity|exfalso; lra].
    - unfold Rleb. destruct (Rdichotomy _ _ N) as [D|D]; [specialize (M D)|specialize (P D)]; destruct (Rle_dec 0 s) as [H0|H0]; destruct (Rle_dec 0 (/ s)) as [H1|H1]; try (exfalso; lra); try reflexivity. destruct (Rle_lt_or_eq_dec 0 (/ s) H1); [reflexivity|exfalso; lra]. }
  split.
  { destruct x; cbn [fl ediv].
    - destruct (Reqb_spec 0 0); [apply I|lra].
    - destruct (Rleb_spec 0 0); [reflexivity|lra].
    - destruct (Rleb_spec 0 0); [reflexivity|lra]. }
  split.
  { intros n. unfold epow. rewrite !Z.abs_eq, Z.abs_opp, !Z.abs_eq, !Nat2Z.id by lia.
    replace (Z.of_nat (S n) <? 0)%Z with false by (symmetry; apply Z.ltb_ge; lia). replace (Z.of_nat n <? 0)%Z with false by (symmetry; apply Z.ltb_ge; lia).
    replace (- Z.of_nat (S n) <? 0)%Z with true by (symmetry; apply Z.ltb_lt; lia). repeat split. }
  destruct x; cbn [fl ele1 Rbar_le].
  - destruct (Rleb_spec r 1); split; intros; auto; discriminate || contradiction.
  - split; intros; [discriminate|contradiction].
  - split; auto.
Qed.
Print Assumptions C67_arithmetic.
(** "Not a number" spreads; the functions have their limits at the infinities. *)
Theorem C67_nan : forall a r,
  eadd NaN a = NaN /\ eadd a NaN = NaN /\ emul NaN a = NaN /\ emul a NaN = NaN /\ ediv NaN a = NaN /\ ediv a NaN = NaN /\ eneg NaN = NaN /\
  eexp NaN = NaN /\ esqrt NaN = NaN /\ esin NaN = NaN /\ ecos NaN = NaN /\ ele1 NaN = false /\
  eexp (Fin r) = Fin (exp r) /\ eexp PInf = PInf /\ eexp MInf = Fin 0 /\
  (0 <= r -> esqrt (Fin r) = Fin (sqrt r)) /\ (r < 0 -> esqrt (Fin r) = NaN) /\ esqrt PInf = PInf /\ esqrt MInf = NaN /\
  esin (Fin r) = Fin (sin r) /\ ecos (Fin r) = Fin (cos r) /\ esin PInf = NaN /\ esin MInf = NaN /\ ecos PInf = NaN /\ ecos MInf = NaN.
Proof.
  intros a r. repeat split; try (destruct a; reflexivity).
  - intros H. cbn [esqrt]. destruct (Rleb_spec 0 r); [reflexivity|lra].
  - intros H. cbn [esqrt]. destruct (Rleb_spec 0 r); [lra|reflexivity].
Qed.
Print Assumptions C67_nan.
(** Every program that meets no singularity: forward mode, iterated in any directions, computes the
    derivatives of its meaning. *)
Theorem C67_programs : forall p ds e, reg e p ->
  run e (iterate p ds) = Fin (derivs ds (fun e => pval e p) e) /\ differentiable ds (fun e => pval e p) e.
Proof. exact regular_ok. Qed.
Print Assumptions C67_programs.

(** * Derivatives *)
(** Exponentiated quadratic: all derivatives, everywhere. *)
Theorem C67_expquad : forall c ds e,
  run e (iterate (expquad_prog c) ds) = Fin (derivs ds (fun e => expquad_eval c (fst e) (snd e)) e) /\
  differentiable ds (fun e => expquad_eval c (fst e) (snd e)) e.
Proof. intros c ds e. fold (on (expquad_eval c)). rewrite <- expquad_val. apply regular_ok. exact (sqdist_reg e _ _). Qed.
Print Assumptions C67_expquad.

(** Functions of one number: all derivatives, everywhere. *)
Theorem C67_functions : forall ds e,
  (forall p, run e (iterate (poly_prog p) ds) = Fin (derivs ds (fun e => py_eval p (fst e [])) e) /\ differentiable ds (fun e => py_eval p (fst e [])) e) /\
  (forall n, run e (iterate (monomial_prog n) ds) = Fin (derivs ds (fun e => fst e [] ^ n) e) /\ differentiable ds (fun e => fst e [] ^ n) e) /\
  (forall l r cs, run e (iterate (sine_prog l r cs) ds) = Fin (derivs ds (fun e => sine_eval l r cs (fst e [])) e) /\ differentiable ds (fun e => sine_eval l r cs (fst e [])) e).
Proof.
  intros ds e. split; [|split].
  - intros p. replace (fun e0 : points => py_eval p (fst e0 [])) with (fun e => pval e (poly_prog p)); [|extensionality e'; apply (horner_val e')].
    apply regular_ok. apply horner_reg. exact I.
  - intros n. replace (fun e0 : points => fst e0 [] ^ n) with (fun e => pval e (monomial_prog n)); [|extensionality e'; cbn [monomial_prog pval arg]; now rewrite <- pow_powerRZ].
    apply regular_ok. split; [exact I|]. left. lia.
  - intros l r cs. replace (fun e0 : points => sine_eval l r cs (fst e0 [])) with (fun e => pval e (sine_prog l r cs)).
    + apply regular_ok, psum_reg. intros q Hq. apply in_map_iff in Hq as ([c w] & <- & _). cbn. auto.
    + extensionality e'. unfold sine_prog, sine_eval. rewrite psum_val, map_map. f_equal. apply map_ext. intros [c w]. reflexivity.
Qed.
Print Assumptions C67_functions.

(** Matérn: all derivatives at points that differ. *)
Theorem C67_matern : forall m p ds e, matern_prog m = Ok p -> (forall i, valid_index (mt_shape m) i -> mt_len m i <> 0) -> apart (mt_shape m) e ->
  run e (iterate p ds) = Fin (derivs ds (fun e => matern_eval m (fst e) (snd e)) e) /\
  differentiable ds (fun e => matern_eval m (fst e) (snd e)) e.
Proof.
  intros m p ds e H L A. fold (on (matern_eval m)). rewrite <- (matern_val m p H). apply regular_ok. unfold matern_prog in H. destruct (mt_nu m) as [n|] eqn:E; [|discriminate]. injection H as <-.
  assert (D : dpos (mt_shape m) (mt_scale m) e).
  { apply apart_dpos; [|exact A]. intros i Hi. unfold mt_scale. rewrite E. cbn [nu_val]. apply Rmult_integral_contrapositive_currified; [|now apply Rinv_neq_0_compat, L].
    assert (0 < 2 * (INR n + 1 / 2)) by (pose proof (pos_INR n); lra). pose proof (sqrt_lt_R0 _ H). lra. }
  split; [apply horner_reg|]; exact (dist_reg e _ _ D).
Qed.
Print Assumptions C67_matern.

(** Wendland: as many derivatives as the polynomial vanishes to at the edge of the support, at points
    that differ (inside, outside and on the edge of the support). *)
Lemma wend_coeffs sh k len w : mk_wendland sh (Z.of_nat k) len = Ok w -> wl_shape w = sh /\ wl_len w = len /\
  float_coeffs (wl_poly w) = map (fun c => c / wend (wl_l (size sh) k) k 0) (it (wl_l (size sh) k) k).
Proof.
  unfold mk_wendland. destruct (wendland_ok _ k _ (wl_l_ok (size sh) k)) as (q & -> & F). intros [= <-]. auto.
Qed.
Theorem C67_wendland : forall sh k len w ds e, mk_wendland sh (Z.of_nat k) len = Ok w -> (forall i, valid_index sh i -> len i <> 0) -> apart sh e ->
  (length ds <= size sh / 2 + 2 * k)%nat ->
  run e (iterate (wendland_prog w) ds) = Fin (derivs ds (fun e => wendland_eval w (fst e) (snd e)) e) /\
  differentiable ds (fun e => wendland_eval w (fst e) (snd e)) e.
Proof.
  intros sh k len w ds e H L A N. fold (on (wendland_eval w)). rewrite <- wendland_val. destruct (wend_coeffs sh k len w H) as (E1 & E2 & F).
  assert (NE : float_coeffs (wl_poly w) <> []) by (rewrite F; intros E; apply (f_equal (@length R)) in E; rewrite map_length, it_length in E; cbn in E; lia).
  apply (wend_chain (wl_shape w) (wl_scale w) (float_coeffs (wl_poly w)) (size sh / 2 + 2 * k)); auto.
  - intros j Hj. rewrite <- Derive_n_RPS. unfold mk_wendland in H. destruct (wendland_poly (Z.of_nat (size sh)) (Z.of_nat k)) as [q|] eqn:Eq; [|discriminate]. injection H as <-.
    rewrite <- (C38_boundary _ _ _ Eq j Hj). cbn [wl_poly] in *. apply Derive_n_ext. intros t. symmetry. apply (horner_correct RF RF_laws). exact NE.
  - apply apart_dpos; [|now rewrite E1]. intros i Hi. unfold wl_scale. rewrite E2. unfold Rdiv. rewrite Rmult_1_l. apply Rinv_neq_0_compat, L. now rewrite <- E1.
Qed.
Print Assumptions C67_wendland.

(** * Operators *)
Lemma iterate_app p ds1 ds2 : iterate p (ds1 ++ ds2) = iterate (iterate p ds1) ds2.
Proof. unfold iterate. apply fold_left_app. Qed.
Lemma derivs_fixed (k : array -> R) (b : bool) (x0 x1 : array) : forall vs (f : points -> R), (forall y : array, f (if b then (x0, y) else (y, x1)) = k y) ->
  forall y : array, derivs (map (pair b) vs) f (if b then (x0, y) else (y, x1)) = fold_left (fun g v => jvp g v) vs k y.
Proof.
  intros vs. revert k. induction vs as [|v vs IH]; intros k f H y; [apply H|]. cbn [map derivs fold_left]. apply IH. intros z. unfold along, jvp. cbn [fst snd].
  apply Derive_ext. intros t. rewrite <- H. f_equal. destruct b; reflexivity.
Qed.
Lemma factors_length a fs : factorize_first_order a = Ok fs -> (length fs <= mi_order a)%nat.
Proof.
  unfold factorize_first_order, composite_of. destruct (flat_map _ _) as [|f l] eqn:E; [discriminate|]. intros [= <-]. rewrite <- E. clear E f l.
  unfold mi_order. generalize (all_indices (mi_shape a)). generalize (mi_arr a). intros arr is. revert arr. induction is as [|i is IH]; intros [|n arr]; cbn [combine flat_map length list_sum fold_right]; try lia.
  rewrite app_length, repeat_length. specialize (IH arr). unfold list_sum in IH. lia.
Qed.
Lemma psum_run e (f : index -> prog) (g : index -> R) l : (forall i, In i l -> run e (f i) = Fin (g i)) -> run e (psum (map f l)) = Fin (rsum (map g l)).
Proof.
  induction l as [|i l IH]; intros H; [reflexivity|]. cbn [map psum rsum fold_right run]. rewrite H by now left. unfold psum, rsum in IH. rewrite IH by (intros j Hj; apply H; now right). reflexivity.
Qed.
Lemma op_run p k d a q T x0 x1 : ad_op d a p = Ok q -> jax_op d = Ok T ->
  (forall ds, (length ds <= order_of d)%nat -> run (x0, x1) (iterate p ds) = Fin (derivs ds (on k) (x0, x1))) ->
  run (x0, x1) q = Fin (if (a =? 0)%nat then T (fun x => k x x1) x0 else T (fun x => k x0 x) x1).
Proof.
  intros Hq HT H. set (b := negb (a =? 0)%nat).
  assert (X : forall vs, (length vs <= order_of d)%nat -> run (x0, x1) (fold_left (fun df v => pjvp b df v) vs p) =
      Fin (if (a =? 0)%nat then fold_left (fun g v => jvp g v) vs (fun x => k x x1) x0 else fold_left (fun g v => jvp g v) vs (fun x => k x0 x) x1)).
  { intros vs L. specialize (H (map (pair b) vs)). rewrite map_length in H. specialize (H L).
    replace (fold_left (fun df v => pjvp b df v) vs p) with (iterate p (map (pair b) vs)).
    - rewrite H. f_equal. unfold b. destruct (a =? 0)%nat; cbn [negb].
      + exact (derivs_fixed (fun x => k x x1) false x0 x1 vs (on k) (fun y => eq_refl) x0).
      + exact (derivs_fixed (fun x => k x0 x) true x0 x1 vs (on k) (fun y => eq_refl) x1).
    - unfold iterate. clear. revert p. induction vs as [|v vs IH]; intros p; [reflexivity|]. cbn [map fold_left fst snd]. apply IH. }
  assert (FM : forall (A B C : Type) (g : A -> C -> A) (m : B -> C) l x, fold_left (fun y z => g y (m z)) l x = fold_left g (map m l) x).
  { intros A B C g m l. induction l as [|z l IH]; intros x; [reflexivity|]. cbn. apply IH. }
  destruct d as [al|al|bb sh w|sh v]; cbn [ad_op jax_op] in Hq, HT.
  - destruct (factorize_first_order al) as [fs|] eqn:Ef; [|discriminate]. cbn [bind] in Hq, HT. injection Hq as <-. injection HT as <-.
    specialize (X (map mi_dir fs)). rewrite map_length in X. specialize (X (factors_length _ _ Ef)). rewrite <- !FM in X. fold b. exact X.
  - discriminate.
  - injection Hq as <-. injection HT as <-. fold b.
    assert (Y : forall i, run (x0, x1) (PMul (PCst (w i)) (pjvp b (pjvp b p (basis_vec i)) (basis_vec i))) =
      Fin (w i * (if (a =? 0)%nat then jvp (jvp (fun x => k x x1) (basis_vec i)) (basis_vec i) x0 else jvp (jvp (fun x => k x0 x) (basis_vec i)) (basis_vec i) x1))).
    { intros i. cbn [run]. specialize (X [basis_vec i; basis_vec i] (le_n 2)). cbn [fold_left] in X. rewrite X. cbn [emul]. reflexivity. }
    rewrite (psum_run _ _ _ _ (fun i _ => Y i)). destruct (a =? 0)%nat; reflexivity.
  - injection Hq as <-. injection HT as <-. exact (X [v] (le_n 1)).
Qed.
(** What the fallback of the operators computes is the mathematical derivative: exponentiated
    quadratic everywhere, Matérn and Wendland where the points differ. *)
Theorem C67_operator : forall d a T x0 x1, jax_op d = Ok T ->
  let op (k : array -> array -> R) := if (a =? 0)%nat then T (fun x => k x x1) x0 else T (fun x => k x0 x) x1 in
  (forall c q, ad_op d a (expquad_prog c) = Ok q -> run (x0, x1) q = Fin (op (expquad_eval c))) /\
  (forall m p q, matern_prog m = Ok p -> ad_op d a p = Ok q -> (forall i, valid_index (mt_shape m) i -> mt_len m i <> 0) -> apart (mt_shape m) (x0, x1) ->
     run (x0, x1) q = Fin (op (matern_eval m))) /\
  (forall sh k len w q, mk_wendland sh (Z.of_nat k) len = Ok w -> ad_op d a (wendland_prog w) = Ok q -> (forall i, valid_index sh i -> len i <> 0) -> apart sh (x0, x1) ->
     (order_of d <= size sh / 2 + 2 * k)%nat -> run (x0, x1) q = Fin (op (wendland_eval w))).
Proof.
  intros d a T x0 x1 HT op. split; [|split].
  - intros c q Hq. apply (op_run (expquad_prog c) (expquad_eval c) d a q T x0 x1 Hq HT). intros ds _. apply C67_expquad.
  - intros m p q Hm Hq L A. apply (op_run p (matern_eval m) d a q T x0 x1 Hq HT). intros ds _. now apply C67_matern.
  - intros sh k len w q Hw Hq L A N. apply (op_run (wendland_prog w) (wendland_eval w) d a q T x0 x1 Hq HT). intros ds Hd. apply (C67_wendland sh k len); auto. lia.
Qed.
Print Assumptions C67_operator.
(** The fallback exists for every operator of order at least one in the model of the operators. *)
Theorem C67_operator_defined : forall d a p, (exists T, jax_op d = Ok T) <-> (exists q, ad_op d a p = Ok q).
Proof.
  intros [al|al|bb sh w|sh v] a p; cbn [ad_op jax_op]; try (split; intros [? ?]; eauto; discriminate).
  destruct (factorize_first_order al); cbn [bind]; split; intros [? ?]; eauto; discriminate.
Qed.

(** * The diagonal *)
Lemma nan_first sh sc e p ds : coincide sh e -> (exists i, valid_index sh i) -> ds <> [] ->
  (forall b v, exists g, tangent b v p = Some g /\ nan sh sc g) -> run e (iterate p ds) = NaN.
Proof.
  intros C N D H. destruct ds as [|[b v] ds]; [now elim D|]. apply (nan_run sh sc e C). change (iterate p ((b, v) :: ds)) with (iterate (pjvp b p v) ds).
  apply (nan_iterate sh sc N). unfold pjvp. destruct (H b v) as (g & -> & G). exact G.
Qed.
Lemma matern_nan m p : matern_prog m = Ok p -> (exists i, valid_index (mt_shape m) i) -> forall b v, exists g, tangent b v p = Some g /\ nan (mt_shape m) (mt_scale m) g.
Proof.
  intros H N b v. unfold matern_prog in H. destruct (mt_nu m) as [n|]; [|discriminate]. injection H as <-. destruct (r_tangent (mt_shape m) (mt_scale m) N b v) as (g & Hg & G).
  cbn [tangent]. rewrite Hg. cbn [option_map]. destruct (tangent b v (horner_prog _ _)); eexists; (split; [reflexivity|]); [apply nan_add2|]; now apply nan_mul2, nan_mul1, nan_neg.
Qed.
Lemma wendland_nan sh k len w : mk_wendland sh (Z.of_nat k) len = Ok w -> (exists i, valid_index sh i) -> forall b v, exists g, tangent b v (wendland_prog w) = Some g /\ nan sh (wl_scale w) g.
Proof.
  intros H N b v. destruct (wend_coeffs sh k len w H) as (E1 & E2 & F). unfold wendland_prog. rewrite E1.
  destruct (nan_horner sh (wl_scale w) N b v (float_coeffs (wl_poly w))) as (g & Hg & G).
  - rewrite F, map_length, it_length. unfold wl_l. lia.
  - cbn [tangent]. rewrite Hg. eexists. split; [reflexivity|]. now apply nan_where.
Qed.
(** On a line through a point the distance to that point is a multiple of the parameter. *)
Lemma line_dist sh sc x v t : bnorm sh (fun i => vdiff (fun j => x j + t * v j) x i * sc i) = Rabs (bnorm sh (fun i => v i * sc i) * t).
Proof.
  unfold bnorm. rewrite Rabs_mult, (Rabs_pos_eq (sqrt _)) by apply sqrt_pos. rewrite <- sqrt_Rsqr_abs, <- sqrt_mult_alt.
  - f_equal. unfold bnorm_sq, bsum, rsum, vdiff. generalize (all_indices sh). induction l as [|i l IH]; cbn [map fold_right]; [ring|]. rewrite IH. unfold Rsqr. ring.
  - unfold bnorm_sq, bsum, rsum. generalize (all_indices sh). induction l as [|i l IH]; cbn [map fold_right]; [lra|]. pose proof (pow2_ge_0 (v i * sc i)). lra.
Qed.
Lemma U_n p : forall n, (n <= 2 * p)%nat -> (forall u, ex_derive_n (U p 0) n u) /\ forall u, Derive_n (U p 0) n u = U p n u.
Proof.
  induction n as [|n IH]; intros H; [split; intros; [exact I|reflexivity]|]. destruct IH as [_ D]; [lia|]. split; intros u; cbn [ex_derive_n Derive_n].
  - apply ex_derive_ext with (f := U p n); [intros t; now rewrite D|]. eexists. apply U_derive. lia.
  - rewrite (Derive_ext _ (U p n)) by exact D. apply is_derive_unique, U_derive. lia.
Qed.
(** Finding: where the points coincide, every derivative of the Matérn and Wendland covariance
    functions that goes through automatic differentiation is "not a number", although along every
    line the functions have 2p and 2k derivatives there. *)
Theorem C67_diagonal_refuted : forall ds e, ds <> [] ->
  (forall m p q, mt_nu m = HalfInt p -> matern_prog m = Ok q -> (exists i, valid_index (mt_shape m) i) -> coincide (mt_shape m) e ->
     run e (iterate q ds) = NaN /\
     forall x v n, (n <= 2 * p)%nat -> ex_derive_n (fun t => matern_eval m (fun i => x i + t * v i) x) n 0) /\
  (forall sh k len w, mk_wendland sh (Z.of_nat k) len = Ok w -> (exists i, valid_index sh i) -> coincide sh e ->
     run e (iterate (wendland_prog w) ds) = NaN /\
     forall x v n, (n <= 2 * k)%nat -> ex_derive_n (fun t => wendland_eval w (fun i => x i + t * v i) x) n 0).
Proof.
  intros ds e D. split.
  - intros m p q Hp Hq N C. split; [apply (nan_first (mt_shape m) (mt_scale m)); auto; now apply matern_nan|]. intros x v n Hn.
    apply ex_derive_n_ext with (f := fun t => U p 0 (bnorm (mt_shape m) (fun i => v i * mt_scale m i) * t)).
    + intros t. unfold matern_eval, mt_dist, mt_diffs. rewrite line_dist, Hp. reflexivity.
    + apply ex_derive_n_comp_scal. exists (mkposreal 1 Rlt_0_1). intros y _ j Hj. apply U_n. lia.
  - intros sh k len w Hw N C. split; [apply (nan_first sh (wl_scale w)); auto; now apply (wendland_nan sh k len)|]. intros x v n Hn.
    destruct (wend_coeffs sh k len w Hw) as (E1 & E2 & F).
    apply ex_derive_n_ext with (f := fun t => wendland_function (wl_poly w) (Rabs (bnorm sh (fun i => v i * wl_scale w i) * t))).
    + intros t. unfold wendland_eval. rewrite E1, line_dist. reflexivity.
    + unfold mk_wendland in Hw. destruct (wendland_poly (Z.of_nat (size sh)) (Z.of_nat k)) as [q|] eqn:Eq; [|discriminate]. injection Hw as <-. cbn [wl_poly].
      destruct (C38_smoothness _ _ _ Eq) as (_ & S & _). apply (ex_derive_n_comp_scal (fun u => wendland_function q (Rabs u))). exists (mkposreal 1 Rlt_0_1). intros y _ j Hj. apply (S j); lia.
Qed.
Print Assumptions C67_diagonal_refuted.
(** The same through the operators of order at least one. *)
Theorem C67_diagonal_operator_refuted : forall d a e q, (1 <= order_of d)%nat -> (match d with DLap _ sh _ => exists i, valid_index sh i | _ => True end) ->
  (forall m p, matern_prog m = Ok p -> (exists i, valid_index (mt_shape m) i) -> coincide (mt_shape m) e -> ad_op d a p = Ok q -> run e q = NaN) /\
  (forall sh k len w, mk_wendland sh (Z.of_nat k) len = Ok w -> (exists i, valid_index sh i) -> coincide sh e -> ad_op d a (wendland_prog w) = Ok q -> run e q = NaN).
Proof.
  intros d a e q O V.
  assert (G : forall sh sc p, coincide sh e -> (exists i, valid_index sh i) -> (forall b v, exists g, tangent b v p = Some g /\ nan sh sc g) -> ad_op d a p = Ok q -> run e q = NaN).
  { intros sh sc p C N H Hq. destruct d as [al|al|bb sh' w|sh' v]; cbn [ad_op] in Hq.
    - destruct (factorize_first_order al) as [fs|] eqn:Ef; [|discriminate]. injection Hq as <-.
      assert (NE : fs <> []) by (unfold factorize_first_order, composite_of in Ef; destruct (flat_map _ _); [discriminate|injection Ef as <-; discriminate]).
      set (b := negb (a =? 0)%nat). replace (fold_left (fun df e0 => pjvp b df (mi_dir e0)) fs p) with (iterate p (map (fun f => (b, mi_dir f)) fs)).
      + apply (nan_first sh sc); auto. now destruct fs.
      + unfold iterate. clear. revert p. induction fs as [|f fs IH]; intros p; [reflexivity|]. cbn [map fold_left fst snd]. apply IH.
    - discriminate.
    - injection Hq as <-. apply (nan_run sh sc e C). set (b := negb (a =? 0)%nat). destruct V as (i & Hi). apply all_indices_spec in Hi. revert Hi. generalize (all_indices sh'). intros l.
      induction l as [|j l IH]; intros Hi; [contradiction|]. cbn [map psum fold_right]. apply nan_add1, nan_mul2. apply (nan_iterate sh sc N [(b, basis_vec j)]).
      unfold pjvp. destruct (H b (basis_vec j)) as (g & -> & Hg). exact Hg.
    - injection Hq as <-. apply (nan_first sh sc e p [(negb (a =? 0)%nat, v)]); auto. discriminate. }
  split.
  - intros m p Hm N C. apply (G (mt_shape m) (mt_scale m)); auto. now apply matern_nan.
  - intros sh k len w Hw N C. apply (G sh (wl_scale w)); auto. now apply (wendland_nan sh k len).
Qed.
Print Assumptions C67_diagonal_operator_refuted.

(** * Concrete cases *)
Definition ad_m : matern := Matern [2%nat] (fun _ => 1) (HalfInt 2).
Definition ad_x : array := fun i => match i with [O] => 1 | _ => 0 end.
Definition ad_y : array := fun _ => 0.
Example ad_apart : apart [2%nat] (ad_x, ad_y).
Proof. exists [0%nat]. split; [repeat constructor|]. exact R1_neq_R0. Qed.
Example ad_matern : exists p, matern_prog ad_m = Ok p /\
  run (ad_x, ad_y) (iterate p [(false, ad_x); (true, ad_x)]) = Fin (derivs [(false, ad_x); (true, ad_x)] (fun e => matern_eval ad_m (fst e) (snd e)) (ad_x, ad_y)) /\
  run (ad_x, ad_x) (iterate p [(false, ad_x); (true, ad_x)]) = NaN.
Proof.
  eexists. split; [reflexivity|]. split.
  - apply C67_matern; [reflexivity|intros; exact R1_neq_R0|exact ad_apart].
  - refine (proj1 (proj1 (C67_diagonal_refuted [(false, ad_x); (true, ad_x)] (ad_x, ad_x) _) ad_m 2%nat _ eq_refl eq_refl _ _)); [discriminate| |intros i _; reflexivity].
    exists [0%nat]. repeat constructor.
Qed.
Example ad_wendland : exists w q, mk_wendland [2%nat] 1 (fun _ => 1) = Ok w /\ ad_op (DLap true [2%nat] (fun _ => 1)) 0 (wendland_prog w) = Ok q /\
  run (ad_x, ad_y) q = Fin (rsum (map (fun i => 1 * jvp (jvp (fun x => wendland_eval w x ad_y) (basis_vec i)) (basis_vec i) ad_x) [[0%nat]; [1%nat]])) /\
  run (ad_x, ad_x) q = NaN.
Proof.
  destruct (C38_accepts 2 1) as [(p & Hp) _]; [cbn; lia|]. exists (Wendland [2%nat] (fun _ => 1) p). eexists.
  assert (H : mk_wendland [2%nat] (Z.of_nat 1) (fun _ => 1) = Ok (Wendland [2%nat] (fun _ => 1) p)) by (unfold mk_wendland; cbn in *; now rewrite Hp).
  split; [exact H|]. split; [reflexivity|]. split.
  - refine (proj2 (proj2 (C67_operator (DLap true [2%nat] (fun _ => 1)) 0 _ ad_x ad_y eq_refl)) [2%nat] 1%nat (fun _ => 1) _ _ H eq_refl _ ad_apart _); [intros; exact R1_neq_R0|cbn; lia].
  - refine (proj2 (C67_diagonal_operator_refuted (DLap true [2%nat] (fun _ => 1)) 0 (ad_x, ad_x) _ _ _) [2%nat] 1%nat (fun _ => 1) _ H _ _ eq_refl).
    + cbn. lia.
    + exists [0%nat]. repeat constructor.
    + exists [0%nat]. repeat constructor.
    + intros i _. reflexivity.
Qed.
Example ad_expquad : run (ad_x, ad_x) (iterate (expquad_prog (ExpQuad [2%nat] (fun _ => 1))) [(false, ad_x)]) =
  Fin (derivs [(false, ad_x)] (fun e => expquad_eval (ExpQuad [2%nat] (fun _ => 1)) (fst e) (snd e)) (ad_x, ad_x)).
Proof. apply C67_expquad. Qed.
Definition ad_p : prog := PDiv (PWhere (PVar true []) (PCos (PVar false [])) (PCst 0)) (PPow (PVar false []) (-3)).
Example ad_program : reg ((fun _ => 2), (fun _ => 0)) ad_p.
Proof.
  split; [|split].
  - split; [exact I|]. split; [exact I|]. split; [exact I|]. exact (not_eq_sym R1_neq_R0).
  - split; [exact I|]. right. apply not_eq_sym, Rlt_not_eq. cbn. lra.
  - cbn. apply not_eq_sym, Rlt_not_eq, Rinv_0_lt_compat. repeat apply Rmult_lt_0_compat; lra.
Qed.
