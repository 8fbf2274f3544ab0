From Coq Require Import List Reals Lra Lia Qcanon QArith Qreals.
From Coquelicot Require Import Coquelicot.
From Verif Require Import Base PolyModel PolySpec PolyProofs PolyClassModel.
Import ListNotations.
Open Scope R_scope.

Notation RPS := (@power_sum RF : list R -> R -> R).

Lemma RPS_cons c cs x : RPS (c :: cs) x = c + x * RPS cs x.
Proof. apply (ps_cons RF RF_laws). Qed.

Lemma RPS_nil x : RPS [] x = 0. Proof. reflexivity. Qed.

Lemma ps_enum_mul_S (cs : list R) : forall k x,
  RPS (@enum_mul RF (S k) cs) x = RPS (@enum_mul RF k cs) x + RPS cs x.
Proof.
  induction cs as [|c cs IH]; intros k x.
  - cbn [enum_mul]. rewrite !RPS_nil. lra.
  - cbn [enum_mul]. rewrite !RPS_cons. rewrite (IH (S k)), IH.
    cbn [fnat fadd fmul RF f1]. ring.
Qed.

Lemma is_derive_ps (cs : list R) (x : R) :
  is_derive (fun t => RPS cs t) x (RPS (@enum_mul RF 1 (tl cs)) x).
Proof.
  revert x. induction cs as [|c cs IH]; intros x.
  - cbn [tl enum_mul]. apply is_derive_ext with (f := fun _ => 0).
    + intros t. reflexivity.
    + rewrite RPS_nil. apply @is_derive_const.
  - apply is_derive_ext with (f := fun t => c + t * RPS cs t).
    + intros t. symmetry. apply RPS_cons.
    + cbn [tl].
      replace (RPS (@enum_mul RF 1 cs) x) with (0 + (1 * RPS cs x + x * RPS (@enum_mul RF 1 (tl cs)) x)).
      * apply @is_derive_plus; [apply @is_derive_const|].
        apply (is_derive_mult (K := R_AbsRing) (fun t : R => t) (fun t : R => RPS cs t) x 1
                 (RPS (@enum_mul RF 1 (tl cs)) x)); [apply @is_derive_id|apply IH|].
        intros u v. apply Rmult_comm.
      * destruct cs as [|d cs]; cbn [tl enum_mul].
        { rewrite !RPS_nil. ring. }
        { rewrite !RPS_cons. rewrite (ps_enum_mul_S cs 1). cbn [fnat fadd fmul RF f1 f0]. ring. }
Qed.

Lemma is_derive_peval (p : list R) (x : R) : p <> [] ->
  is_derive (fun t => @peval RF p t) x (@peval RF (@pdiff RF p) x).
Proof.
  intros Hp. unfold pdiff. rewrite (peval_mkpoly RF RF_laws).
  apply is_derive_ext with (f := fun t => RPS p t).
  - intros t. symmetry. apply (horner_correct RF RF_laws). exact Hp.
  - apply is_derive_ps.
Qed.

(** ** Qc to R is a field morphism *)
Lemma Q2R_this_Q2Qc q : Q2R (this (Q2Qc q)) = Q2R q.
Proof. cbn [this Q2Qc]. apply Qeq_eqR. apply Qred_correct. Qed.

Lemma Qc2R_0 : Qc2R 0%Qc = 0.
Proof. unfold Qc2R. cbn. unfold Q2R. cbn. lra. Qed.
Lemma Qc2R_1 : Qc2R 1%Qc = 1.
Proof. unfold Qc2R. cbn. unfold Q2R. cbn. lra. Qed.
Lemma Qc2R_add a b : Qc2R (a + b)%Qc = Qc2R a + Qc2R b.
Proof. unfold Qc2R, Qcplus. rewrite Q2R_this_Q2Qc. apply Q2R_plus. Qed.
Lemma Qc2R_opp a : Qc2R (- a)%Qc = - Qc2R a.
Proof. unfold Qc2R, Qcopp. rewrite Q2R_this_Q2Qc. apply Q2R_opp. Qed.
Lemma Qc2R_sub a b : Qc2R (a - b)%Qc = Qc2R a - Qc2R b.
Proof. unfold Qcminus. rewrite Qc2R_add, Qc2R_opp. reflexivity. Qed.
Lemma Qc2R_mul a b : Qc2R (a * b)%Qc = Qc2R a * Qc2R b.
Proof. unfold Qc2R, Qcmult. rewrite Q2R_this_Q2Qc. apply Q2R_mult. Qed.
Lemma Qc2R_inj a b : Qc2R a = Qc2R b -> a = b.
Proof. intros H. apply Qc_is_canon. apply eqR_Qeq. exact H. Qed.
Lemma Qc2R_inv a : a <> 0%Qc -> Qc2R (/ a)%Qc = / Qc2R a.
Proof.
  intros H. assert (Ha : Qc2R a <> 0).
  { intros E. apply H. apply Qc2R_inj. rewrite E, Qc2R_0. reflexivity. }
  apply Rmult_eq_reg_l with (Qc2R a); [|exact Ha].
  rewrite <- Qc2R_mul, Qcmult_inv_r, Qc2R_1 by exact H. field. exact Ha.
Qed.
Lemma Qc2R_div a b : b <> 0%Qc -> Qc2R (a / b)%Qc = Qc2R a / Qc2R b.
Proof. intros H. unfold Qcdiv. rewrite Qc2R_mul, Qc2R_inv by exact H. reflexivity. Qed.
Lemma Qc2R_nat n : Qc2R (@fnat QcF n) = @fnat RF n.
Proof.
  induction n as [|n IH]; [apply Qc2R_0|].
  cbn [fnat]. cbn [fadd f1 QcF RF] in *. rewrite Qc2R_add, Qc2R_1, IH. reflexivity.
Qed.
Lemma Qc2R_Z z : Qc2R (Q2Qc (inject_Z z)) = IZR z.
Proof. unfold Qc2R. rewrite Q2R_this_Q2Qc. unfold Q2R, inject_Z. cbn. field. Qed.

(** Float conversion commutes with all polynomial operations. *)
Notation m := (map Qc2R).

Lemma m_mkpoly (cs : list Qc) : m (@mkpoly QcF cs) = @mkpoly RF (m cs).
Proof. destruct cs as [|c cs]; [|reflexivity]. cbn. now rewrite Qc2R_0. Qed.

Lemma m_zl (opq : Qc -> Qc -> Qc) (opr : R -> R -> R) :
  (forall a b, Qc2R (opq a b) = opr (Qc2R a) (Qc2R b)) ->
  forall xs ys, m (@zip_longest QcF opq xs ys) = @zip_longest RF opr (m xs) (m ys).
Proof.
  intros H. induction xs as [|a xs IH]; intros ys.
  - rewrite (zl_nil_l QcF), (zl_nil_l RF), !map_map. apply map_ext. intros a.
    rewrite H. cbn. now rewrite Qc2R_0.
  - destruct ys as [|b ys]; cbn [zip_longest map]; rewrite H, IH; [|reflexivity].
    cbn. now rewrite Qc2R_0.
Qed.

Lemma m_padd (p q : list Qc) : m (@padd QcF p q) = @padd RF (m p) (m q).
Proof. unfold padd. rewrite m_mkpoly. f_equal. apply m_zl. apply Qc2R_add. Qed.
Lemma m_psub (p q : list Qc) : m (@psub QcF p q) = @psub RF (m p) (m q).
Proof. unfold psub. rewrite m_mkpoly. f_equal. apply m_zl. apply Qc2R_sub. Qed.
Lemma m_pneg (p : list Qc) : m (@pneg QcF p) = @pneg RF (m p).
Proof. unfold pneg. rewrite m_mkpoly, !map_map. f_equal. apply map_ext. apply Qc2R_opp. Qed.
Lemma m_pscale c (p : list Qc) : m (@pscale QcF c p) = @pscale RF (Qc2R c) (m p).
Proof. unfold pscale. rewrite m_mkpoly, !map_map. f_equal. apply map_ext. intros a. apply Qc2R_mul. Qed.
Lemma m_pshift (p : list Qc) n : m (@pshift QcF p n) = @pshift RF (m p) n.
Proof.
  assert (E : m (repeat (@f0 QcF) n) = repeat (@f0 RF) n).
  { induction n as [|n IH]; [reflexivity|]. cbn [repeat map]. rewrite IH. cbn. now rewrite Qc2R_0. }
  unfold pshift. rewrite m_mkpoly. f_equal. etransitivity; [apply map_app|].
  exact (f_equal (fun l => l ++ m p) E).
Qed.
Lemma m_pdiff (p : list Qc) : m (@pdiff QcF p) = @pdiff RF (m p).
Proof.
  unfold pdiff. rewrite m_mkpoly. f_equal.
  assert (E : forall cs k, m (@enum_mul QcF k cs) = @enum_mul RF k (m cs)).
  { induction cs as [|c cs IH]; intros k; cbn [enum_mul map]; [reflexivity|].
    rewrite IH. f_equal. cbn [fmul QcF RF]. rewrite Qc2R_mul, Qc2R_nat. reflexivity. }
  rewrite E. destruct p; reflexivity.
Qed.
Lemma m_pintegrate (p : list Qc) : m (@pintegrate QcF p) = @pintegrate RF (m p).
Proof.
  unfold pintegrate. rewrite m_mkpoly. f_equal. cbn [map f0 QcF RF]. rewrite Qc2R_0.
  assert (E : forall cs k, m (@enum_div QcF k cs) = @enum_div RF k (m cs)).
  { induction cs as [|c cs IH]; intros k; cbn [enum_div map]; [reflexivity|].
    rewrite IH. f_equal. cbn [fdiv QcF RF]. rewrite Qc2R_div, Qc2R_nat; [reflexivity|].
    rewrite Nat.add_1_r. apply (fnat_S_neq0 QcF QcF_laws). }
  exact (f_equal (cons 0) (E p 0%nat)).
Qed.
Lemma m_nth (p : list Qc) i : nth i (m p) 0 = Qc2R (nth i p 0%Qc).
Proof. rewrite <- Qc2R_0. apply map_nth. Qed.
Lemma m_fsum l : Qc2R (@fsum QcF l) = @fsum RF (m l).
Proof.
  unfold fsum. induction l as [|a l IH]; [apply Qc2R_0|].
  cbn [fold_right map]. cbn [fadd QcF RF] in *. rewrite Qc2R_add, IH. reflexivity.
Qed.
Lemma m_pmul (p q : list Qc) : m (@pmul QcF p q) = @pmul RF (m p) (m q).
Proof.
  unfold pmul. rewrite m_mkpoly. f_equal. unfold pdegree. rewrite !map_length.
  rewrite map_map. apply map_ext. intros k. rewrite m_fsum, map_map. f_equal.
  apply map_ext. intros i. unfold pcoef. rewrite !(m_nth _ _).
  cbn [fmul QcF RF]. rewrite Qc2R_mul. reflexivity.
Qed.
Lemma m_floordiv (p : list Qc) n :
  @pfloordiv_monomial RF (m p) n
  = bind (@pfloordiv_monomial QcF p n) (fun c => Ok (m c)).
Proof.
  unfold pfloordiv_monomial. unfold pdegree. rewrite map_length.
  destruct (negb _); [reflexivity|].
  assert (Ef : firstn n (m p) = m (firstn n p)) by apply firstn_map.
  assert (Es : skipn n (m p) = m (skipn n p)) by apply skipn_map.
  cbn [car RF QcF] in *. rewrite Ef, Es.
  assert (E : forall l, existsb (fun c : R => negb (@feqb RF c (@f0 RF))) (m l)
               = existsb (fun c : Qc => negb (@feqb QcF c (@f0 QcF))) l).
  { induction l as [|a l IH]; [reflexivity|]. cbn [existsb map]. rewrite IH. f_equal. f_equal.
    destruct (@feqb RF (Qc2R a) (@f0 RF)) eqn:E1; destruct (@feqb QcF a (@f0 QcF)) eqn:E2; auto; exfalso.
    - apply (fl_eqb RF RF_laws) in E1. cbn in E1. rewrite <- Qc2R_0 in E1. apply Qc2R_inj in E1.
      apply (fl_eqb QcF QcF_laws) in E1. cbn in E1, E2. congruence.
    - apply (fl_eqb QcF QcF_laws) in E2. rewrite E2 in E1. cbn [f0 QcF] in E1. rewrite Qc2R_0 in E1.
      assert (T : @feqb RF 0 0 = true) by (apply (fl_eqb RF RF_laws); reflexivity).
      cbn in T, E1. congruence. }
  rewrite E. destruct (existsb _ _); [reflexivity|]. cbn [bind]. f_equal.
  rewrite m_mkpoly. reflexivity.
Qed.

(** ** Objects *)
Definition py_valid (p : pypoly) : Prop := float_coeffs p <> [].

Lemma py_valid_rat cs : py_valid (PRat cs) <-> cs <> [].
Proof. unfold py_valid. cbn. destruct cs; cbn; split; intros H; try congruence; discriminate. Qed.

Lemma py_eval_add p q x : py_valid p -> py_valid q -> py_eval (py_add p q) x = py_eval p x + py_eval q x.
Proof.
  intros Hp Hq. unfold py_eval.
  assert (E : float_coeffs (py_add p q) = @padd RF (float_coeffs p) (float_coeffs q)).
  { destruct p, q; try reflexivity. cbn. apply m_padd. }
  rewrite E. apply (eval_padd RF RF_laws); assumption.
Qed.
Lemma py_eval_sub p q x : py_valid p -> py_valid q -> py_eval (py_sub p q) x = py_eval p x - py_eval q x.
Proof.
  intros Hp Hq. unfold py_eval.
  assert (E : float_coeffs (py_sub p q) = @psub RF (float_coeffs p) (float_coeffs q)).
  { destruct p, q; try reflexivity. cbn. apply m_psub. }
  rewrite E. apply (eval_psub RF RF_laws); assumption.
Qed.
Lemma py_eval_neg p x : py_valid p -> py_eval (py_neg p) x = - py_eval p x.
Proof.
  intros Hp. unfold py_eval.
  assert (E : float_coeffs (py_neg p) = @pneg RF (float_coeffs p)).
  { destruct p; try reflexivity. cbn. apply m_pneg. }
  rewrite E. apply (eval_pneg RF RF_laws); assumption.
Qed.
Lemma py_eval_scale s p x : py_valid p -> py_eval (py_scale s p) x = scalar_value s * py_eval p x.
Proof.
  intros Hp. unfold py_eval.
  assert (E : float_coeffs (py_scale s p) = @pscale RF (scalar_value s) (float_coeffs p)).
  { destruct p, s; try reflexivity; cbn [py_scale float_coeffs].
    - rewrite m_pscale, Qc2R_Z. reflexivity.
    - rewrite m_pscale. reflexivity. }
  rewrite E. apply (eval_pscale RF RF_laws); assumption.
Qed.
Lemma py_eval_add_const p c x : py_valid p -> py_eval (py_add_const p c) x = py_eval p x + c.
Proof. intros Hp. apply (eval_padd_const RF RF_laws). exact Hp. Qed.

Lemma py_diff_coeffs p : float_coeffs (py_diff p) = @pdiff RF (float_coeffs p).
Proof. destruct p; [reflexivity|]. cbn. apply m_pdiff. Qed.
Lemma py_integrate_coeffs p : float_coeffs (py_integrate p) = @pintegrate RF (float_coeffs p).
Proof. destruct p; [reflexivity|]. cbn [py_integrate float_coeffs]. apply m_pintegrate. Qed.

Lemma py_valid_diff p : py_valid (py_diff p).
Proof. unfold py_valid. rewrite py_diff_coeffs. apply (wf_mkpoly RF). Qed.
Lemma py_valid_integrate p : py_valid (py_integrate p).
Proof. unfold py_valid. rewrite py_integrate_coeffs. apply (wf_mkpoly RF). Qed.

Lemma py_diff_is_derive p x : py_valid p -> is_derive (py_eval p) x (py_eval (py_diff p) x).
Proof. intros Hp. unfold py_eval. rewrite py_diff_coeffs. apply is_derive_peval. exact Hp. Qed.

Lemma py_diff_integrate p : py_valid p -> py_diff (py_integrate p) = p.
Proof.
  intros Hp. destruct p as [cs|cs]; cbn [py_diff py_integrate]; f_equal.
  - apply (pdiff_pintegrate RF RF_laws). exact Hp.
  - apply (pdiff_pintegrate QcF QcF_laws). apply py_valid_rat. exact Hp.
Qed.

Lemma py_integrate_is_antideriv p x : py_valid p -> is_derive (py_eval (py_integrate p)) x (py_eval p x).
Proof.
  intros Hp. rewrite <- (py_diff_integrate p Hp) at 2.
  apply py_diff_is_derive. apply py_valid_integrate.
Qed.

Lemma py_integrate_0 p : py_eval (py_integrate p) 0 = 0.
Proof. unfold py_eval. rewrite py_integrate_coeffs. apply (eval_pintegrate_0 RF RF_laws). Qed.

Lemma py_eval_continuous p x : py_valid p -> continuous (py_eval p) x.
Proof.
  intros Hp. apply (ex_derive_continuous (K := R_AbsRing) (V := R_NormedModule)).
  eexists. apply py_diff_is_derive. exact Hp.
Qed.

Lemma poly_lebesgue_is_RInt p a b : py_valid p ->
  is_RInt (py_eval p) a b (poly_lebesgue a b p).
Proof.
  intros Hp. unfold poly_lebesgue.
  apply (is_RInt_derive (py_eval (py_integrate p)) (py_eval p)).
  - intros x _. apply py_integrate_is_antideriv. exact Hp.
  - intros x _. apply py_eval_continuous. exact Hp.
Qed.
