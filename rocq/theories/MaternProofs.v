(** Derivatives of the half-integer Matérn kernels. *)
From Coq Require Import List Reals Lra Lia Bool Arith ZArith FunctionalExtensionality.
From Coquelicot Require Import Coquelicot.
From Verif Require Import Base NdArray PolyModel PolyClassModel PolyCalc PolyProps FunExprModel DiffopModel DiffopSpec DiffopProofs LfoModel LfoSpec LfoSmooth
  KernelModel KernelSpec KernelCalc MaternPoly MaternProps.
Import ListNotations.
Open Scope R_scope.

(** ** Functions of the absolute value *)
Definition sg (u : R) : R := if Rlt_dec u 0 then -1 else 1.
Lemma near_sign u : u <> 0 -> locally u (fun v => sg v = sg u /\ Rabs v = sg u * v).
Proof.
  intros N. assert (P : 0 < Rabs u) by now apply Rabs_pos_lt. exists (mkposreal _ P). intros v Hv.
  unfold ball in Hv; cbn in Hv; unfold AbsRing_ball, abs, minus, plus, opp in Hv; cbn in Hv.
  unfold sg. destruct (Rlt_dec v 0), (Rlt_dec u 0); unfold Rabs in *; repeat destruct Rcase_abs; split; lra.
Qed.
Lemma even_glue (F F' : R -> R) : (forall z, is_derive F z (F' z)) -> F' 0 = 0 ->
  forall u, is_derive (fun v => F (Rabs v)) u (sg u * F' (Rabs u)).
Proof.
  intros H Z u. destruct (Req_dec u 0) as [->|N].
  - rewrite Rabs_R0, Z, Rmult_0_r. apply is_derive_Reals. pose proof (H 0) as D. rewrite Z in D. apply is_derive_Reals in D.
    intros eps He. destruct (D eps He) as (del & Hd). exists del. intros h Hh Hl.
    assert (Ha : Rabs h <> 0) by now apply Rabs_no_R0.
    specialize (Hd (Rabs h) Ha). rewrite Rabs_Rabsolu in Hd. specialize (Hd Hl). rewrite Rplus_0_l in *. rewrite Rabs_R0.
    rewrite Rminus_0_r in *. unfold Rdiv in *. rewrite Rabs_mult, Rabs_inv in *. now rewrite Rabs_Rabsolu in Hd.
  - apply is_derive_ext_loc with (f := fun v => F (sg u * v)).
    { apply filter_imp with (2 := near_sign u N). intros v [_ E]. now rewrite E. }
    replace (Rabs u) with (sg u * u).
    + apply (is_derive_comp F (fun v => sg u * v) u (F' (sg u * u)) (sg u)); [apply H|]. auto_derive; [trivial|ring].
    + unfold sg. destruct (Rlt_dec u 0); unfold Rabs; destruct Rcase_abs; lra.
Qed.
Lemma odd_glue (F F' : R -> R) : (forall z, is_derive F z (F' z)) -> F 0 = 0 ->
  forall u, is_derive (fun v => sg v * F (Rabs v)) u (F' (Rabs u)).
Proof.
  intros H Z u. destruct (Req_dec u 0) as [->|N].
  - rewrite Rabs_R0. apply is_derive_Reals. pose proof (H 0) as D. apply is_derive_Reals in D.
    intros eps He. destruct (D eps He) as (del & Hd). exists del. intros h Hh Hl.
    assert (Ha : Rabs h <> 0) by now apply Rabs_no_R0.
    specialize (Hd (Rabs h) Ha). rewrite Rabs_Rabsolu in Hd. specialize (Hd Hl). rewrite Rplus_0_l in *. rewrite Rabs_R0, Z in *.
    rewrite Rmult_0_r, Rminus_0_r in *.
    replace (sg h * F (Rabs h) / h) with (F (Rabs h) / Rabs h); [exact Hd|].
    unfold sg, Rabs. destruct (Rlt_dec h 0), (Rcase_abs h); try lra; field; lra.
  - apply is_derive_ext_loc with (f := fun v => sg u * F (sg u * v)).
    { apply filter_imp with (2 := near_sign u N). intros v [E1 E2]. now rewrite E1, E2. }
    assert (S : sg u * sg u = 1) by (unfold sg; destruct Rlt_dec; ring).
    replace (F' (Rabs u)) with (sg u * (sg u * F' (sg u * u))).
    + apply @is_derive_scal. apply (is_derive_comp F (fun v => sg u * v) u (F' (sg u * u)) (sg u)); [apply H|]. auto_derive; [trivial|ring].
    + rewrite <- Rmult_assoc, S, Rmult_1_l. f_equal. unfold sg. destruct (Rlt_dec u 0); unfold Rabs; destruct Rcase_abs; lra.
Qed.
(** No derivative at a kink. *)
Lemma kink (F F' : R -> R) (c : R) : (forall z, is_derive F z (F' z)) -> F' 0 <> 0 -> c <> 0 -> ~ ex_derive (fun v => F (Rabs (c * v))) 0.
Proof.
  intros H N Hc (l & D). apply is_derive_Reals in D. pose proof (H 0) as D1. apply is_derive_Reals in D1.
  assert (Pc : 0 < Rabs c) by now apply Rabs_pos_lt.
  assert (A : forall s, s = 1 \/ s = -1 -> forall eps, 0 < eps -> Rabs (Rabs c * F' 0 - s * l) < eps).
  { intros s Hs eps He. destruct (D (eps / 2) ltac:(lra)) as (d1 & H1).
    destruct (D1 (eps / 2 / Rabs c)) as (d2 & H2). { apply Rdiv_lt_0_compat; lra. }
    set (h := Rmin (d1 / 2) (d2 / 2 / Rabs c)). pose proof (cond_pos d1) as P1. pose proof (cond_pos d2) as P2.
    assert (Ph : 0 < h). { unfold h. apply Rmin_pos; [lra|]. apply Rdiv_lt_0_compat; lra. }
    assert (L1 : h < d1) by (unfold h; pose proof (Rmin_l (d1 / 2) (d2 / 2 / Rabs c)); lra).
    assert (L2 : Rabs c * h < d2). { pose proof (Rmin_r (d1 / 2) (d2 / 2 / Rabs c)) as M. fold h in M. apply Rmult_le_compat_l with (r := Rabs c) in M; [|lra].
      replace (Rabs c * (d2 / 2 / Rabs c)) with (d2 / 2) in M by (field; lra). lra. }
    assert (As : Rabs s = 1) by (destruct Hs as [-> | ->]; unfold Rabs; destruct Rcase_abs; lra).
    assert (S2 : s * s = 1) by (destruct Hs as [-> | ->]; ring).
    specialize (H1 (s * h)). rewrite Rplus_0_l, Rmult_0_r, Rabs_R0 in H1.
    specialize (H2 (Rabs c * h)). rewrite Rplus_0_l in H2.
    assert (Hn : s * h <> 0). { apply Rmult_integral_contrapositive_currified; [destruct Hs; lra|lra]. }
    assert (Hl : Rabs (s * h) < d1). { rewrite Rabs_mult, As, Rmult_1_l, Rabs_pos_eq; lra. }
    specialize (H1 Hn Hl).
    assert (Hn2 : Rabs c * h <> 0). { apply Rmult_integral_contrapositive_currified; lra. }
    assert (Hl2 : Rabs (Rabs c * h) < d2). { rewrite Rabs_pos_eq; [lra|]. apply Rmult_le_pos; lra. }
    specialize (H2 Hn2 Hl2).
    replace (Rabs (c * (s * h))) with (Rabs c * h) in H1 by (rewrite !Rabs_mult, As, (Rabs_pos_eq h) by lra; ring).
    set (q := (F (Rabs c * h) - F 0) / h) in *.
    assert (E1 : (F (Rabs c * h) - F 0) / (s * h) = s * q). { unfold q. destruct Hs as [-> | ->]; field; lra. }
    assert (E2 : (F (Rabs c * h) - F 0) / (Rabs c * h) = q / Rabs c). { unfold q. field. split; lra. }
    rewrite E1 in H1. rewrite E2 in H2.
    assert (B1 : Rabs (q - s * l) < eps / 2).
    { replace (q - s * l) with (s * (s * q - l)) by (replace (s * (s * q - l)) with (s * s * q - s * l) by ring; rewrite S2; ring). now rewrite Rabs_mult, As, Rmult_1_l. }
    assert (B2 : Rabs (Rabs c * F' 0 - q) < eps / 2).
    { replace (Rabs c * F' 0 - q) with (- (Rabs c * (q / Rabs c - F' 0))) by (field; lra). rewrite Rabs_Ropp, Rabs_mult, Rabs_Rabsolu.
      apply Rmult_lt_compat_l with (r := Rabs c) in H2; [|lra]. replace (Rabs c * (eps / 2 / Rabs c)) with (eps / 2) in H2 by (field; lra). exact H2. }
    replace (Rabs c * F' 0 - s * l) with ((Rabs c * F' 0 - q) + (q - s * l)) by ring.
    pose proof (Rabs_triang (Rabs c * F' 0 - q) (q - s * l)). lra. }
  assert (B : forall s, s = 1 \/ s = -1 -> Rabs c * F' 0 = s * l).
  { intros s Hs. apply Rminus_diag_uniq. destruct (Req_dec (Rabs c * F' 0 - s * l) 0) as [|X]; [assumption|].
    pose proof (A s Hs (Rabs (Rabs c * F' 0 - s * l)) ltac:(now apply Rabs_pos_lt)). lra. }
  pose proof (B 1 ltac:(auto)). pose proof (B (-1) ltac:(auto)). assert (Z : Rabs c * F' 0 = 0) by lra.
  apply Rmult_integral in Z. destruct Z; [lra|contradiction].
Qed.

(** ** Functions of the square root *)
Section Radial.
Variables F h : R -> R.
Hypothesis FD : forall z, is_derive F z (z * h z).
Hypothesis hC : forall z, continuous h z.
Definition phi (u : R) : R := if Rlt_dec u 0 then F 0 + h 0 * u / 2 else F (sqrt u).
Lemma radial_bound eps : 0 < eps -> exists del : posreal, forall z, 0 <= z -> z < del -> Rabs (F z - F 0 - h 0 * z ^ 2 / 2) <= eps * z ^ 2.
Proof.
  intros He. pose proof (hC 0) as C. apply continuity_pt_filterlim in C. destruct (C eps He) as (del & Pd & Hd). exists (mkposreal del Pd). cbn [pos].
  intros z Hz Hl. destruct (Req_dec z 0) as [->|N]; [match goal with |- Rabs ?x <= _ => replace x with 0 by field end; rewrite Rabs_R0; lra|].
  set (D := fun z => F z - h 0 * z ^ 2 / 2).
  assert (DD : forall z, is_derive D z (z * (h z - h 0))).
  { intros t. unfold D. replace (t * (h t - h 0)) with (t * h t - h 0 * t) by ring. apply (is_derive_minus F (fun z => h 0 * z ^ 2 / 2)); [apply FD|]. auto_derive; [trivial|field]. }
  destruct (MVT_gen D 0 z (fun t => t * (h t - h 0))) as (c & Hc & E).
  - intros; apply DD.
  - intros t _. apply continuity_pt_filterlim, (ex_derive_continuous D t). eexists. apply DD.
  - rewrite Rmin_left, Rmax_right in Hc by lra. unfold D in E. rewrite Rminus_0_r in E.
    replace (F z - F 0 - h 0 * z ^ 2 / 2) with (c * (h c - h 0) * z) by (rewrite <- E; field).
    rewrite !Rabs_mult, (Rabs_pos_eq c), (Rabs_pos_eq z) by lra.
    assert (B : Rabs (h c - h 0) <= eps).
    { destruct (Req_dec c 0) as [->|Nc]; [rewrite Rminus_eq_0, Rabs_R0; lra|]. left. apply (Hd c). split.
      - split; [exact Logic.I|]. auto.
      - cbn. unfold R_dist. rewrite Rminus_0_r, Rabs_pos_eq; lra. }
    pose proof (Rabs_pos (h c - h 0)).
    assert (c * Rabs (h c - h 0) <= z * eps) by (apply Rmult_le_compat; lra).
    assert (c * Rabs (h c - h 0) * z <= z * eps * z) by (apply Rmult_le_compat_r; lra). nra.
Qed.
Lemma phi_derive u : is_derive phi u (h (sqrt u) / 2).
Proof.
  destruct (Rtotal_order u 0) as [L|[->|G]].
  - rewrite sqrt_neg_0 by lra. apply is_derive_ext_loc with (f := fun u => F 0 + h 0 * u / 2).
    + assert (P : 0 < - u) by lra. exists (mkposreal _ P). intros v Hv. unfold ball in Hv; cbn in Hv; unfold AbsRing_ball, abs, minus, plus, opp in Hv; cbn in Hv.
      unfold phi. destruct (Rlt_dec v 0); [reflexivity|]. unfold Rabs in Hv. destruct Rcase_abs; lra.
    + auto_derive; [trivial|field].
  - rewrite sqrt_0. apply is_derive_Reals. intros eps He. destruct (radial_bound (eps / 2) ltac:(lra)) as (del & Hd).
    assert (P : 0 < del ^ 2) by (apply pow_lt, cond_pos). exists (mkposreal _ P). intros v Nv Hv. cbn in Hv. rewrite Rplus_0_l.
    unfold phi. destruct (Rlt_dec 0 0); [lra|]. rewrite sqrt_0. destruct (Rlt_dec v 0) as [L|G].
    + replace ((F 0 + h 0 * v / 2 - F 0) / v - h 0 / 2) with 0 by (field; lra). rewrite Rabs_R0. exact He.
    + assert (Pv : 0 < v) by lra. rewrite (Rabs_pos_eq v) in Hv by lra. pose proof (cond_pos del) as Pd.
      assert (Sv : sqrt v < del). { replace (pos del) with (sqrt (del ^ 2)); [apply sqrt_lt_1; lra|]. rewrite sqrt_pow2; lra. }
      specialize (Hd (sqrt v) (sqrt_pos v) Sv). rewrite pow2_sqrt in Hd by lra.
      replace ((F (sqrt v) - F 0) / v - h 0 / 2) with ((F (sqrt v) - F 0 - h 0 * v / 2) / v) by (field; lra).
      unfold Rdiv at 1. rewrite Rabs_mult, Rabs_inv, (Rabs_pos_eq v) by lra.
      apply Rle_lt_trans with (eps / 2 * v * / v); [|field_simplify; lra]. apply Rmult_le_compat_r; [|exact Hd]. left. now apply Rinv_0_lt_compat.
  - apply is_derive_ext_loc with (f := fun u => F (sqrt u)).
    + exists (mkposreal _ G). intros v Hv. unfold ball in Hv; cbn in Hv; unfold AbsRing_ball, abs, minus, plus, opp in Hv; cbn in Hv.
      unfold phi. destruct (Rlt_dec v 0); [|reflexivity]. unfold Rabs in Hv. destruct Rcase_abs; lra.
    + assert (Ps : 0 < sqrt u) by now apply sqrt_lt_R0.
      replace (h (sqrt u) / 2) with (scal (/ (2 * sqrt u)) (sqrt u * h (sqrt u))) by (unfold scal; cbn; unfold mult; cbn; field; lra).
      apply (is_derive_comp F sqrt u (sqrt u * h (sqrt u)) (/ (2 * sqrt u))); [apply FD|]. auto_derive; [lra|field; lra].
Qed.
Lemma radial_grad sh Q dQ : (forall d, 0 <= Q d) -> grad sh Q dQ ->
  grad sh (fun d => F (sqrt (Q d))) (fun i d => h (sqrt (Q d)) * (dQ i d / 2)).
Proof.
  intros P G. eapply grad_ext0 with (G := fun d => phi (Q d)).
  { intros d. unfold phi. destruct (Rlt_dec (Q d) 0); [specialize (P d); lra|reflexivity]. }
  eapply grad_ext; [|apply (grad_comp sh phi (fun u => h (sqrt u) / 2)); [apply phi_derive|exact G]].
  intros i _ d. cbn beta. field.
Qed.
End Radial.

(** ** Operators on kernels of the difference *)
Lemma pd_in sh a G dG i : grad sh G dG -> In i (all_indices sh) ->
  in_arg a (pd i) (fun x y => G (vdiff x y)) = fun x y => dsgn a * dG i (vdiff x y).
Proof.
  intros H I. extensionality x. extensionality y. unfold in_arg, dsgn. destruct a.
  - rewrite (pd_vdiff0 sh G dG) by assumption. ring.
  - rewrite (pd_vdiff1 sh G dG) by assumption. ring.
Qed.
Lemma diff_vdiff sh a G dG : grad sh G dG -> diff_in a sh (fun x y => G (vdiff x y)).
Proof.
  intros H x0 x1 i V. apply all_indices_spec in V. destruct a.
  - exists (scal 1 (dG i (vdiff x0 x1))). apply is_derive_ext with (f := fun t => G (upd (vdiff x0 x1) i (t - x1 i))).
    { intros t. now rewrite vdiff_upd0. }
    apply (is_derive_comp (fun u => G (upd (vdiff x0 x1) i u)) (fun t => t - x1 i) (x0 i) (dG i (vdiff x0 x1)) 1).
    + exact (H i V (vdiff x0 x1)).
    + auto_derive; [trivial|ring].
  - exists (scal (-1) (dG i (vdiff x0 x1))). apply is_derive_ext with (f := fun t => G (upd (vdiff x0 x1) i (x0 i - t))).
    { intros t. now rewrite vdiff_upd1. }
    apply (is_derive_comp (fun u => G (upd (vdiff x0 x1) i u)) (fun t => x0 i - t) (x1 i) (dG i (vdiff x0 x1)) (-1)).
    + exact (H i V (vdiff x0 x1)).
    + auto_derive; [trivial|ring].
Qed.
Lemma deriv_dir sh v a G dG k k' : grad sh G dG -> (forall x y, k x y = G (vdiff x y)) ->
  (forall x y, k' x y = dsgn a * total (map (fun i => v i * dG i (vdiff x y)) (all_indices sh))) -> derivative_of a (DDir sh v) k k'.
Proof.
  intros H E E'. assert (k = fun x y => G (vdiff x y)) as -> by (extensionality x; extensionality y; apply E).
  split; [|split]; [now apply (diff_vdiff sh a G dG)|exact Logic.I|]. intros x0 x1. now rewrite E', (dir_vdiff sh v G dG) by assumption.
Qed.
Lemma deriv_lap sh b w a G dG ddG k k' : grad sh G dG -> (forall i, In i (all_indices sh) -> grad sh (dG i) (ddG i)) ->
  (forall x y, k x y = G (vdiff x y)) ->
  (forall x y, k' x y = total (map (fun i => w i * ddG i i (vdiff x y)) (all_indices sh))) -> derivative_of a (DLap b sh w) k k'.
Proof.
  intros H H2 E E'. assert (k = fun x y => G (vdiff x y)) as -> by (extensionality x; extensionality y; apply E).
  split; [|split]; [now apply (diff_vdiff sh a G dG)| |].
  - intros i V. pose proof (proj2 (all_indices_spec sh i) V) as I. rewrite (pd_in sh a G dG i H I).
    apply (diff_vdiff sh a (fun d => dsgn a * dG i d) (fun j d => dsgn a * ddG i j d)). apply grad_scal. now apply H2.
  - intros x0 x1. now rewrite E', (lap_vdiff b sh w G dG ddG) by assumption.
Qed.

(** ** The Matérn kernel in any dimension *)
Definition Fn (p n : nat) (z : R) : R := E p n z * exp (- z).
Section Multi.
Variables (m : matern) (p : nat).
Hypothesis Hp : mt_nu m = HalfInt p.
Notation sh := (mt_shape m).
Notation s := (mt_scale m).
Definition Qm (d : array) : R := total (map (fun i => (d i * s i) ^ 2) (all_indices sh)).
Lemma Qm_pos d : 0 <= Qm d.
Proof. unfold Qm. induction (all_indices sh) as [|i l IH]; unfold total in *; cbn [map fold_right]; [lra|]. pose proof (pow2_ge_0 (d i * s i)). lra. Qed.
Lemma dist_Q x0 x1 : mt_dist m x0 x1 = sqrt (Qm (vdiff x0 x1)).
Proof. reflexivity. Qed.
Lemma grad_Qm : grad sh Qm (fun i d => 2 * s i ^ 2 * d i).
Proof.
  apply (grad_coordsum sh (fun i t => (t * s i) ^ 2) (fun i t => 2 * s i ^ 2 * t)).
  intros j t. auto_derive; [trivial|ring].
Qed.
Lemma ev_mat x0 x1 : ceval (CMat m) x0 x1 = Fn p 0 (sqrt (Qm (vdiff x0 x1))).
Proof. cbn [ceval]. unfold matern_eval. rewrite Hp. reflexivity. Qed.
Lemma ev_mat_spec x0 x1 : ceval (CMat m) x0 x1 = matern_fun sh (mt_len m) p x0 x1.
Proof.
  cbn [ceval]. unfold matern_eval, matern_fun. rewrite Hp, profile_half. f_equal. rewrite dist_Q. unfold wdist. f_equal. unfold Qm.
  apply total_ext. intros i _. unfold mt_scale. rewrite Hp. cbn [nu_val]. replace (2 * (INR p + 1 / 2)) with (2 * INR p + 1) by field. unfold vdiff. ring.
Qed.
Section First.
Variable q1 : pypoly.
Hypothesis Hq : py_floordiv (matern_poly p 1) 1 = Ok q1.
Definition h1 (z : R) : R := py_eval q1 z * exp (- z).
Lemma q1_spec : py_valid q1 /\ forall z, E p 1 z = py_eval q1 z * z.
Proof.
  destruct (py_floordiv_spec _ 1 (matern_valid p 1)) as (S & _). destruct (S _ Hq) as (V & X & _). split; [exact V|].
  intros z. unfold E. rewrite <- X. ring.
Qed.
Lemma exp_neg_derive z : is_derive (fun z => exp (- z)) z (- exp (- z)).
Proof. auto_derive; [trivial|ring]. Qed.
Lemma poly_exp_derive q z : py_valid q -> is_derive (fun z => py_eval q z * exp (- z)) z ((py_eval (py_diff q) z - py_eval q z) * exp (- z)).
Proof.
  intros V. pose proof (is_derive_mult (fun z => py_eval q z) (fun z => exp (- z)) z _ _ (py_diff_is_derive q z V) (exp_neg_derive z) Rmult_comm) as M.
  match type of M with is_derive _ _ ?l => match goal with |- is_derive _ _ ?r => replace r with l; [exact M|] end end.
  unfold plus, mult; cbn. ring.
Qed.
Lemma h1_cont z : continuous h1 z.
Proof. apply (ex_derive_continuous h1 z). eexists. apply poly_exp_derive, q1_spec. Qed.
Lemma F0_h1 z : is_derive (Fn p 0) z (z * h1 z).
Proof. replace (z * h1 z) with (E p 1 z * exp (- z)); [apply E_derive|]. unfold h1. rewrite (proj2 q1_spec). ring. Qed.
Lemma grad_mat : grad sh (fun d => Fn p 0 (sqrt (Qm d))) (fun i d => s i ^ 2 * d i * h1 (sqrt (Qm d))).
Proof.
  eapply grad_ext; [|apply (radial_grad (Fn p 0) h1 F0_h1 h1_cont sh Qm); [apply Qm_pos|apply grad_Qm]].
  intros i _ d. cbn beta. field.
Qed.
Definition Sd (v d : array) : R := total (map (fun i => v i * s i ^ 2 * d i) (all_indices sh)).
Lemma ev_matdir v r x0 x1 : ceval (CMatDir m v r q1) x0 x1 =
  (if r then 1 else -1) * (Sd v (vdiff x0 x1) * h1 (sqrt (Qm (vdiff x0 x1)))).
Proof.
  cbn [ceval]. unfold matdir_eval, h1. rewrite dist_Q.
  replace (bsum sh (fun i => matdir_scaled m v r i * mt_diffs m x0 x1 i)) with ((if r then 1 else -1) * Sd v (vdiff x0 x1)); [ring|].
  unfold Sd, bsum. rewrite <- total_mult. apply total_ext. intros i _. unfold matdir_scaled, mt_diffs. destruct r; ring.
Qed.
Lemma matdir_deriv v a : derivative_of a (DDir sh v) (ceval (CMat m)) (ceval (CMatDir m v (is0 a) q1)).
Proof.
  apply (deriv_dir sh v a _ _ _ _ grad_mat); [apply ev_mat|]. intros x y. rewrite ev_matdir. f_equal; [destruct a; reflexivity|].
  unfold Sd. rewrite Rmult_comm, <- total_mult. apply total_ext. intros i _. ring.
Qed.
(** The mixed derivative. *)
Section Second.
Variables npd pd2 : pypoly.
Hypothesis Hn : py_floordiv (py_neg (matern_poly p 1)) 1 = Ok npd.
Hypothesis Hd : py_floordiv (py_add (matern_poly p 2) npd) 2 = Ok pd2.
Lemma off_zero (f g : R -> R) : (forall z, continuous f z) -> (forall z, continuous g z) -> (forall z, z <> 0 -> f z = g z) -> f 0 = g 0.
Proof.
  intros Cf Cg H. assert (C : continuous (fun z => f z - g z) 0) by (apply @continuous_minus; auto).
  apply continuity_pt_filterlim in C. destruct (Req_dec (f 0 - g 0) 0) as [|N]; [lra|]. exfalso.
  destruct (C (Rabs (f 0 - g 0)) ltac:(now apply Rabs_pos_lt)) as (del & Pd & D).
  specialize (D (del / 2)). unfold dist, R_met, R_dist in D. cbn [Base] in D. rewrite (H (del / 2)) in D by lra.
  rewrite Rminus_eq_0 in D. rewrite Rminus_0_r in D. replace (0 - (f 0 - g 0)) with (- (f 0 - g 0)) in D by ring. rewrite Rabs_Ropp in D.
  apply (Rlt_irrefl (Rabs (f 0 - g 0))), D. split; [split; [exact Logic.I|lra]|]. rewrite Rabs_pos_eq; lra.
Qed.
Lemma npd_eval z : py_eval npd z = - py_eval q1 z.
Proof.
  destruct (py_floordiv_spec _ 1 (py_valid_neg _ (matern_valid p 1))) as (S & _). destruct (S _ Hn) as (Vn & X & _).
  assert (O : forall z, z <> 0 -> py_eval npd z = - py_eval q1 z).
  { intros t Nt. apply (Rmult_eq_reg_r t); [|exact Nt]. pose proof (X t) as Xt. rewrite pow_1, py_eval_neg in Xt by apply matern_valid.
    rewrite Xt. change (py_eval (matern_poly p 1) t) with (E p 1 t). rewrite (proj2 q1_spec). ring. }
  destruct (Req_dec z 0) as [->|N]; [|auto].
  apply (off_zero (py_eval npd) (fun z => - py_eval q1 z)); [|intros t; apply @continuous_opp|exact O];
    intros; apply py_eval_continuous; (exact Vn || apply q1_spec).
Qed.
Lemma q1_deriv z : py_eval (py_diff q1) z - py_eval q1 z = z * py_eval pd2 z.
Proof.
  destruct (py_floordiv_spec _ 2 (py_valid_add (matern_poly p 2) npd)) as (S & _). destruct (S _ Hd) as (Vd & X & _). clear S.
  destruct q1_spec as [V Q].
  assert (Vn : py_valid npd) by (destruct (py_floordiv_spec _ 1 (py_valid_neg _ (matern_valid p 1))) as (S & _); now destruct (S _ Hn)).
  assert (D2 : forall t, E p 2 t = py_eval q1 t + t * (py_eval (py_diff q1) t - py_eval q1 t)).
  { intros t. pose proof (E_derive p 1 t) as A.
    assert (B : is_derive (fun z => E p 1 z * exp (- z)) t ((py_eval q1 t + t * (py_eval (py_diff q1) t - py_eval q1 t)) * exp (- t))).
    { apply is_derive_ext with (f := fun z => z * h1 z); [intros z0; unfold h1; rewrite Q; match goal with |- @eq _ ?a ?b => change (@eq R a b) end; ring|].
      pose proof (is_derive_mult (fun z => z) h1 t 1 _ (is_derive_id t) (poly_exp_derive q1 t V) Rmult_comm) as M.
      match type of M with is_derive _ _ ?l => match goal with |- is_derive _ _ ?r => replace r with l; [exact M|] end end.
      unfold plus, mult, h1; cbn. ring. }
    apply is_derive_unique in A. apply is_derive_unique in B. rewrite A in B. apply Rmult_eq_reg_r in B; [exact B|]. apply Rgt_not_eq, exp_pos. }
  assert (O : forall z, z <> 0 -> py_eval (py_diff q1) z - py_eval q1 z = z * py_eval pd2 z).
  { intros t Nt. pose proof (X t) as Xt. rewrite py_eval_add, npd_eval in Xt by (exact Vn || apply matern_valid).
    change (py_eval (matern_poly p 2) t) with (E p 2 t) in Xt. rewrite D2 in Xt. apply (Rmult_eq_reg_l t); [|exact Nt].
    transitivity (py_eval pd2 t * t ^ 2); [rewrite Xt; ring|ring]. }
  destruct (Req_dec z 0) as [->|N]; [|auto].
  apply (off_zero (fun z => py_eval (py_diff q1) z - py_eval q1 z) (fun z => z * py_eval pd2 z)); [intros t; apply @continuous_minus|intros t; apply @continuous_mult|exact O];
    try apply @continuous_id; apply py_eval_continuous; try assumption. now apply py_valid_diff.
Qed.
Definition h2 (z : R) : R := py_eval pd2 z * exp (- z).
Lemma h1_h2 z : is_derive h1 z (z * h2 z).
Proof. replace (z * h2 z) with ((py_eval (py_diff q1) z - py_eval q1 z) * exp (- z)); [apply poly_exp_derive, q1_spec|]. rewrite q1_deriv. unfold h2. ring. Qed.
Lemma pd2_valid : py_valid pd2.
Proof. destruct (py_floordiv_spec _ 2 (py_valid_add (matern_poly p 2) npd)) as (S & _). now destruct (S _ Hd). Qed.
Lemma h2_cont z : continuous h2 z.
Proof. apply (ex_derive_continuous h2 z). eexists. apply poly_exp_derive, pd2_valid. Qed.
Lemma grad_h1 : grad sh (fun d => h1 (sqrt (Qm d))) (fun i d => s i ^ 2 * d i * h2 (sqrt (Qm d))).
Proof.
  eapply grad_ext; [|apply (radial_grad h1 h2 h1_h2 h2_cont sh Qm); [apply Qm_pos|apply grad_Qm]].
  intros i _ d. cbn beta. field.
Qed.
Lemma grad_Sd v : grad sh (Sd v) (fun i _ => v i * s i ^ 2).
Proof.
  apply (grad_coordsum sh (fun i t => v i * s i ^ 2 * t) (fun i _ => v i * s i ^ 2)).
  intros j t. auto_derive; [trivial|ring].
Qed.
Lemma ev_matdirdir v0 v1 x0 x1 : ceval (CMatDirDir m v0 v1 npd pd2) x0 x1 =
  - (total (map (fun i => v0 i * v1 i * s i ^ 2) (all_indices sh)) * h1 (sqrt (Qm (vdiff x0 x1)))
     + Sd v0 (vdiff x0 x1) * Sd v1 (vdiff x0 x1) * h2 (sqrt (Qm (vdiff x0 x1)))).
Proof.
  cbn [ceval]. unfold matdirdir_eval, h1, h2. rewrite dist_Q, npd_eval.
  replace (matdirdir_inprod m v0 v1) with (total (map (fun i => v0 i * v1 i * s i ^ 2) (all_indices sh)))
    by (apply total_ext; intros i _; ring).
  assert (A : forall v, bsum sh (fun i => s i * v i * mt_diffs m x0 x1 i) = Sd v (vdiff x0 x1)).
  { intros v. apply total_ext. intros i _. unfold mt_diffs. ring. }
  rewrite !A. ring.
Qed.
Lemma matdirdir_deriv v0 v1 a : derivative_of a (DDir sh v0) (ceval (CMatDir m v1 (negb (is0 a)) q1))
  (ceval (if is0 a then CMatDirDir m v0 v1 npd pd2 else CMatDirDir m v1 v0 npd pd2)).
Proof.
  apply (deriv_dir sh v0 a (fun d => - dsgn a * (Sd v1 d * h1 (sqrt (Qm d))))
    (fun i d => - dsgn a * (v1 i * s i ^ 2 * h1 (sqrt (Qm d)) + Sd v1 d * (s i ^ 2 * d i * h2 (sqrt (Qm d)))))).
  - apply grad_scal, grad_mult; [apply grad_Sd|apply grad_h1].
  - intros x y. rewrite ev_matdir. f_equal. destruct a; cbn; ring.
  - intros x y. transitivity (- (total (map (fun i => v0 i * v1 i * s i ^ 2) (all_indices sh)) * h1 (sqrt (Qm (vdiff x y)))
     + Sd v0 (vdiff x y) * Sd v1 (vdiff x y) * h2 (sqrt (Qm (vdiff x y))))).
    + destruct a; cbn [is0 Nat.eqb]; rewrite ev_matdirdir; [reflexivity|]. f_equal. f_equal; [|ring]. f_equal. apply total_ext. intros i _. ring.
    + assert (S : dsgn a * dsgn a = 1) by (destruct a; cbn; ring).
      set (A := h1 _). set (B := h2 _). set (V := Sd v1 _).
      transitivity (- (total (map (fun i => A * (v0 i * v1 i * s i ^ 2) + V * B * (v0 i * s i ^ 2 * vdiff x y i)) (all_indices sh)))).
      * rewrite total_plus, !total_mult. unfold Sd. ring.
      * rewrite <- (Rmult_1_l (- _)), <- S, Rmult_assoc. f_equal. rewrite <- Ropp_mult_distr_r, Ropp_mult_distr_l, <- total_mult. apply total_ext. intros i _. ring.
Qed.
End Second.
End First.
End Multi.
