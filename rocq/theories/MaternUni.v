(** Derivatives of the univariate half-integer Matérn kernels. *)
From Coq Require Import List Reals Lra Lia Bool Arith ZArith FunctionalExtensionality.
From Coquelicot Require Import Coquelicot.
From Verif Require Import Base NdArray PolyModel PolyClassModel PolyCalc PolyProps FunExprModel DiffopModel DiffopSpec DiffopProofs LfoModel LfoSpec LfoSmooth
  KernelModel KernelSpec KernelCalc MaternPoly MaternProps MaternProofs.
Import ListNotations.
Open Scope R_scope.

Definition U (p n : nat) (u : R) : R := if Nat.even n then Fn p n (Rabs u) else sg u * Fn p n (Rabs u).
Lemma Fn_derive p n z : is_derive (Fn p n) z (Fn p (S n) z). Proof. apply E_derive. Qed.
Lemma Fn_zero p n : Fn p n 0 = mc p n 0.
Proof. unfold Fn. now rewrite Ropp_0, exp_0, Rmult_1_r, E_zero. Qed.
Lemma U_derive p n : (n < 2 * p)%nat -> forall u, is_derive (U p n) u (U p (S n) u).
Proof.
  intros H u. unfold U. rewrite Nat.even_succ, <- Nat.negb_even. destruct (Nat.even n) eqn:En; cbn [negb].
  - apply (even_glue (Fn p n) (Fn p (S n)) (Fn_derive p n)). rewrite Fn_zero. apply Nat.even_spec in En as (j & ->).
    replace (S (2 * j)) with (2 * j + 1)%nat by lia. apply odd_vanish. lia.
  - apply (odd_glue (Fn p n) (Fn p (S n)) (Fn_derive p n)). rewrite Fn_zero.
    assert (O : Nat.odd n = true) by (rewrite <- Nat.negb_even, En; reflexivity). apply Nat.odd_spec in O as (j & ->). apply odd_vanish. lia.
Qed.
Lemma U_kink p c : c <> 0 -> ~ ex_derive (fun v => U p (2 * p) (c * v)) 0.
Proof.
  intros Hc. assert (X : ~ ex_derive (fun v => Fn p (2 * p) (Rabs (c * v))) 0).
  { apply (kink (Fn p (2 * p)) (Fn p (S (2 * p))) c (Fn_derive p _)); [|exact Hc]. rewrite Fn_zero. replace (S (2 * p)) with (2 * p + 1)%nat by lia.
    intros Z. apply odd_vanish in Z. lia. }
  intros D. apply X. revert D. apply ex_derive_ext. intros t. unfold U.
  replace (Nat.even (2 * p)) with true; [reflexivity|]. symmetry. apply Nat.even_spec. now exists p.
Qed.
Section Uni.
Variables (m : matern) (p : nat) (i0 : index).
Hypothesis Hp : mt_nu m = HalfInt p.
Hypothesis Hi : all_indices (mt_shape m) = [i0].
Notation sh := (mt_shape m).
Notation s0 := (mt_scale m i0).
Definition kU (n : nat) (c : R) : kernel := fun x y => c * U p n (vdiff x y i0 * s0).
Lemma grad_U n c : (n < 2 * p)%nat -> grad sh (fun d => c * U p n (d i0 * s0)) (fun _ d => c * s0 * U p (S n) (d i0 * s0)).
Proof.
  intros H. assert (G : grad sh (fun d => d i0 * s0) (fun _ _ => s0)).
  { intros i I d. rewrite Hi in I. destruct I as [<-|[]]. apply is_derive_ext with (f := fun t => t * s0); [intros t; now rewrite upd_same|]. auto_derive; [trivial|ring]. }
  eapply grad_ext; [|apply grad_scal, (grad_comp sh (U p n) (U p (S n)) _ _ (U_derive p n H) G)]. intros i _ d. cbn beta. ring.
Qed.
Lemma uni_dir n c v a k' : (n < 2 * p)%nat -> (forall x y, k' x y = kU (S n) (dsgn a * (v i0 * s0) * c) x y) ->
  derivative_of a (DDir sh v) (kU n c) k'.
Proof.
  intros H E. apply (deriv_dir sh v a _ _ _ _ (grad_U n c H)); [reflexivity|]. intros x y. rewrite E, Hi. unfold kU, total. cbn [map fold_right]. ring.
Qed.
Lemma uni_lap n c b w a k' : (S n < 2 * p)%nat -> (forall x y, k' x y = kU (S (S n)) (w i0 * s0 ^ 2 * c) x y) ->
  derivative_of a (DLap b sh w) (kU n c) k'.
Proof.
  intros H E. apply (deriv_lap sh b w a (fun d => c * U p n (d i0 * s0)) (fun _ d => c * s0 * U p (S n) (d i0 * s0)) (fun _ _ d => c * s0 * s0 * U p (S (S n)) (d i0 * s0))).
  - apply grad_U. lia.
  - intros i _. now apply grad_U.
  - reflexivity.
  - intros x y. rewrite E, Hi. unfold kU, total. cbn [map fold_right]. ring.
Qed.
(** No derivative where the order of differentiation reaches [2p + 1]. *)
Lemma uni_kink c a : c <> 0 -> s0 <> 0 -> ~ diff_in a sh (kU (2 * p) c).
Proof.
  intros Hc Hs D. assert (V : valid_index sh i0) by (apply all_indices_spec; rewrite Hi; now left).
  specialize (D (fun _ => 0) (fun _ => 0) i0 V).
  assert (X : forall e, e <> 0 -> ex_derive (fun t => c * U p (2 * p) (e * t)) 0 -> False).
  { intros e He Y. apply (U_kink p e He). 
    apply ex_derive_ext with (f := fun t => / c * (c * U p (2 * p) (e * t))); [intros t; match goal with |- @eq _ ?a ?b => change (@eq R a b) end; field; exact Hc|]. now apply @ex_derive_scal. }
  destruct a; cbn beta in D; unfold kU, vdiff in D.
  - apply (X s0 Hs). revert D. apply ex_derive_ext. intros t. rewrite upd_same. do 2 f_equal. ring.
  - apply (X (- s0)); [lra|]. revert D. apply ex_derive_ext. intros t. rewrite upd_same. do 2 f_equal. ring.
Qed.
(** ** The closed forms *)
Lemma dist_abs x y : mt_dist m x y = Rabs (vdiff x y i0 * s0).
Proof.
  unfold mt_dist, bnorm, bnorm_sq, bsum. rewrite Hi. unfold rsum. cbn [map fold_right]. rewrite Rplus_0_r.
  replace (mt_diffs m x y i0 ^ 2) with (Rsqr (vdiff x y i0 * s0)) by (unfold Rsqr, mt_diffs; ring). apply sqrt_Rsqr_abs.
Qed.
Lemma squeeze0 a : squeeze sh a = a i0. Proof. unfold squeeze. now rewrite Hi. Qed.
Lemma bsum1 a : bsum sh a = a i0. Proof. unfold bsum, rsum. rewrite Hi. cbn. ring. Qed.
Lemma abs_sg u : u = sg u * Rabs u.
Proof. unfold sg, Rabs. destruct Rlt_dec, Rcase_abs; lra. Qed.
Lemma uev_mat x y : ceval (CMat m) x y = kU 0 1 x y.
Proof. cbn [ceval]. unfold matern_eval, kU, U. rewrite Hp, dist_abs. cbn [Nat.even]. rewrite Rmult_1_l. reflexivity. Qed.
Lemma div_odd j q u : py_floordiv (matern_poly p (2 * j + 1)) 1 = Ok q -> u * (py_eval q (Rabs u) * exp (- Rabs u)) = U p (2 * j + 1) u.
Proof.
  intros H. destruct (py_floordiv_spec _ 1 (matern_valid p (2 * j + 1))) as (S & _). destruct (S _ H) as (_ & X & _).
  unfold U. replace (Nat.even (2 * j + 1)) with false.
  2:{ symmetry. rewrite <- Nat.negb_odd. replace (Nat.odd (2 * j + 1)) with true; [reflexivity|]. symmetry. apply Nat.odd_spec. now exists j. }
  unfold Fn, E. rewrite <- X, pow_1. rewrite (abs_sg u) at 1. ring.
Qed.
Lemma uev_dir v r q x y : py_floordiv (matern_poly p 1) 1 = Ok q ->
  ceval (CMatDir m v r q) x y = kU 1 ((if r then 1 else -1) * (v i0 * s0)) x y.
Proof.
  intros H. cbn [ceval]. unfold matdir_eval, kU. rewrite dist_abs, bsum1. rewrite <- (div_odd 0 q _ H). unfold matdir_scaled, mt_diffs. destruct r; ring.
Qed.
Lemma uev_dirdir v0 v1 x y : ceval (CUMatDirDir m v0 v1 (py_neg (matern_poly p 2))) x y = kU 2 (- (v0 i0 * v1 i0 * s0 ^ 2)) x y.
Proof.
  cbn [ceval]. unfold umatdirdir_eval, umatdirdir_prod, kU, U, Fn, E. rewrite dist_abs, squeeze0, py_eval_neg by apply matern_valid. cbn [Nat.even]. ring.
Qed.
Lemma uev_lap w r x y : ceval (CUMatLap m w r (matern_poly p 2)) x y = kU 2 (w i0 * s0 ^ 2) x y.
Proof. cbn [ceval]. unfold umatlap_eval, umatlap_factor, kU, U, Fn, E. rewrite dist_abs, squeeze0. cbn [Nat.even]. ring. Qed.
Lemma uev_laplap w0 w1 x y : ceval (CUMatLapLap m w0 w1 (matern_poly p 4)) x y = kU 4 (w0 i0 * w1 i0 * s0 ^ 4) x y.
Proof. cbn [ceval]. unfold umatlaplap_eval, umatlaplap_factor, kU, U, Fn, E. rewrite dist_abs, squeeze0. cbn [Nat.even]. ring. Qed.
Lemma uev_dirlap v w r q x y : py_floordiv (matern_poly p 3) 1 = Ok q ->
  ceval (CUMatDirLap m v w r q) x y = kU 3 ((if r then -1 else 1) * (v i0 * w i0 * s0 ^ 3)) x y.
Proof.
  intros H. cbn [ceval]. unfold umatdirlap_eval, kU. rewrite dist_abs, bsum1. rewrite <- (div_odd 1 q _ H). unfold umatdirlap_scaled, mt_diffs. destruct r; ring.
Qed.
End Uni.
