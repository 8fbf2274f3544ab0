(** Matérn covariance functions of one variable with their derivatives. *)
From Coq Require Import List Arith Lia Reals Lra FunctionalExtensionality.
From Coquelicot Require Import Coquelicot.
From Verif Require Import Base NdArray FunExprModel DiffopModel DiffopSpec LfoModel LfoSpec LfoSmooth KernelModel KernelSpec KernelSmooth KernelProps
  ParamSpec ParamProofs TensorSchur PsdBase MaternPoly MaternProofs MaternUni ExpQuadProofs PsdMatern PsdDiff PsdSpec
  PsdProps PsdMat PdeCondBase PdeCondSpec SmoothSym GaussStrict PsdIntegral ObsPsdProps LineObs MaternStrict LineStrict StatChain.
Import ListNotations.
Open Scope R_scope.

Lemma matern_half_Fn p r : Fn p 0 r = matern_half p r.
Proof. unfold Fn. rewrite <- profile_half. reflexivity. Qed.
Lemma U_cont p n u : (n <= 2 * p)%nat -> continuous (U p n) u.
Proof.
  intros H. destruct (Nat.even n) eqn:E.
  - apply (continuous_ext (fun u => Fn p n (Rabs u))); [intros v; unfold U; now rewrite E|]. apply (continuous_comp Rabs (Fn p n)); [apply continuous_Rabs|].
    apply (ex_derive_continuous (Fn p n)). eexists. apply Fn_derive.
  - apply (ex_derive_continuous (U p n)). eexists. apply U_derive. enough (n <> 2 * p)%nat by lia. intros ->. rewrite Nat.even_mul in E. discriminate.
Qed.
Lemma cont2_first (G : R -> R -> R) (h : R -> R) : cont2 G -> cont h -> cont2 (fun u a => G (h u) a).
Proof.
  intros CG Ch u a e. destruct (CG (h u) a e) as [d Hd]. destruct (cont2_fst h Ch u a d) as [d' Hd'].
  exists (mkposreal (Rmin d d') (Rmin_pos _ _ (cond_pos d) (cond_pos d'))). cbn [pos]. intros v b Hv Hb. pose proof (Rmin_l d d'). pose proof (Rmin_r d d').
  apply Hd; [apply (Hd' v a); [lra|rewrite Rminus_eq_0, Rabs_R0; apply cond_pos]|lra].
Qed.
Lemma vanish_form {X} (K : X -> X -> R) l : (forall phi : X -> R, sumR (fun p => fst p * phi (snd p)) l = 0) -> form K l = 0.
Proof.
  intros V. unfold form. rewrite <- (V (fun x => sumR (fun q => fst q * K x (snd q)) l)). apply sumR_ext. intros p _. rewrite sumR_scal. apply sumR_ext. intros q _. ring.
Qed.

Section Mat.
Variables (p : nat) (w : R).
Hypothesis Hw : w <> 0.
(** The derivative of order [n] of the profile at [w u]. *)
Definition gm (n : nat) (u : R) : R := w ^ n * U p n (w * u).
Lemma gm_0 u : gm 0 u = matern_half p (Rabs (w * u)).
Proof. unfold gm, U. cbn [pow Nat.even]. rewrite Rmult_1_l. apply matern_half_Fn. Qed.
Lemma gm_derive n u : (n < 2 * p)%nat -> is_derive (gm n) u (gm (S n) u).
Proof.
  intros H. unfold gm. evar_last.
  - apply is_derive_scal. apply (is_derive_comp (U p n) (fun u => w * u)); [apply (U_derive p n H)|auto_derive; [trivial|reflexivity]].
  - unfold scal. cbn [pow]. cbn -[U]. unfold mult. cbn -[U]. ring.
Qed.
Lemma gm_chain : chain gm p.
Proof.
  split; [exact gm_derive|]. intros n u H. apply (continuous_scal (fun _ => w ^ n) (fun u => U p n (w * u))); [apply continuous_const|].
  apply (continuous_comp (fun u => w * u) (U p n)); [apply (ex_derive_continuous (fun u => w * u)); auto_derive; trivial|]. now apply U_cont.
Qed.
Lemma gm_even : even_fun (gm 0).
Proof. intros u. rewrite !gm_0. f_equal. rewrite <- Ropp_mult_distr_r. apply Rabs_Ropp. Qed.
Lemma gm_psd : psd_kernel (fun x y : R => gm 0 (x - y) : car RF).
Proof.
  apply (psd_ext (fun x y : R => matern_half p (sqrt (sqdist [tt] (fun _ => w) (fun _ => x) (fun _ => y))) : car RF)).
  - intros x y. cbn [car RF]. now rewrite one_dist, gm_0.
  - exact (psd_pull (fun a b : unit -> R => matern_half p (sqrt (sqdist [tt] (fun _ => w) a b)) : car RF) (fun (x : R) (_ : unit) => x) (matern_psd [tt] (fun _ => w) p)).
Qed.

(** ** The mixture of Gaussians below it *)
Let M (u : R) := Rmax u (/ 2).
Definition mA (u : R) : R := M u ^ (2 * p) * exp (- M u ^ 2).
Definition mc2 (u : R) : R := w ^ 2 / 4 * / M u ^ 2.
Definition mxg (n : nat) (u a : R) : R := mA u * hq (mc2 u) n a.
Definition mx (n : nat) (a : R) : R := RInt (fun u => mxg n u a) (/ 2) 2.
Lemma M_cont : cont M. Proof. exact max_cont. Qed.
Lemma M_pos u : 0 < M u. Proof. pose proof (max_pos u). unfold M. lra. Qed.
Lemma mA_cont : cont mA.
Proof.
  assert (Cp : forall n, cont (fun u => M u ^ n)) by (intros n u; apply (continuous_comp M (fun v => v ^ n)); [apply M_cont|apply pow_cont]).
  refine (PsdIntegral.cmul _ _ (Cp _) _). intros u. apply (continuous_comp (fun u => M u ^ 2) (fun v => exp (- v))); [apply Cp|]. apply (ex_derive_continuous (fun v => exp (- v))). auto_derive. trivial.
Qed.
Lemma mA_pos u : 0 < mA u. Proof. unfold mA. apply Rmult_lt_0_compat; [apply pow_lt, M_pos|apply exp_pos]. Qed.
Lemma mc2_cont : cont mc2.
Proof.
  intros u. apply (continuous_comp M (fun v => w ^ 2 / 4 * / v ^ 2)); [apply M_cont|]. apply (ex_derive_continuous (fun v => w ^ 2 / 4 * / v ^ 2)). auto_derive. pose proof (M_pos u). nra.
Qed.
Lemma mc2_pos u : 0 < mc2 u.
Proof. unfold mc2. pose proof (M_pos u). apply Rmult_lt_0_compat; [|apply Rinv_0_lt_compat, pow_lt; lra]. assert (0 < w ^ 2); [|lra]. rewrite <- Rsqr_pow2. now apply Rsqr_pos_lt. Qed.
Lemma mxg_cont n : cont2 (mxg n).
Proof.
  apply (cont2_mult (fun u _ => mA u) (fun u a => hq (mc2 u) n a)); [apply (cont2_fst mA), mA_cont|].
  apply (cont2_first (fun c a => hq c n a) mc2); [apply hq_cont|apply mc2_cont].
Qed.
Lemma mxg_derive n u a : is_derive (mxg n u) a (mxg (S n) u a).
Proof. apply is_derive_scal, hq_derive. Qed.
Lemma mx_derive n a : is_derive (mx n) a (mx (S n) a).
Proof.
  evar_last.
  - apply (is_derive_RInt_param (fun a u => mxg n u a) (/ 2) 2 a).
    + apply filter_forall. intros b t _. eexists. apply mxg_derive.
    + intros t _. apply (continuity_2d_pt_ext (fun a u => mxg (S n) u a)); [|apply (cont2_swap (mxg (S n))), mxg_cont].
      intros b u. symmetry. apply is_derive_unique, mxg_derive.
    + apply filter_forall. intros b. apply cont_ex. exact (cont2_left (mxg n) b (mxg_cont n)).
  - unfold mx. apply RInt_ext. intros u _. apply is_derive_unique, mxg_derive.
Qed.
Lemma mx_0 x y : mx 0 (x - y) = moment p (Rabs (w * (x - y)) / 2) 1.
Proof.
  rewrite (moment_mixG p w). unfold mx. apply RInt_ext. intros u _. unfold mxg, mixG, mA, mixand, mc2. fold (M u). rewrite hq_0, Rmult_assoc, <- exp_plus. f_equal. f_equal. rewrite half_sq. pose proof (M_pos u). field. lra.
Qed.
Theorem gm_strict : strict_on (fun v => fst v <= p)%nat (lk gm).
Proof.
  intros l O Z. destruct (matern_split p) as (c & Hc & P). specialize (P _ [tt] (fun _ => w)).
  set (h := fun n u => gm n u - c * mx n u).
  assert (N : 0 <= form (lk h) l).
  { apply (line_psd h p); [| | |exact O].
    - intros n u H. apply @is_derive_minus; [now apply gm_derive|apply is_derive_scal, mx_derive].
    - intros n u H. apply (continuous_minus (gm n) (fun u => c * mx n u)); [now apply gm_chain|].
      apply (continuous_scal (fun _ => c) (mx n)); [apply continuous_const|]. apply (ex_derive_continuous (mx n)). eexists. apply mx_derive.
    - apply (psd_ext (fun x y : R => matern_half p (sqrt (sqdist [tt] (fun _ => w) (fun _ => x) (fun _ => y))) - c * moment p (sqrt (sqdist [tt] (fun _ => w) (fun _ => x) (fun _ => y)) / 2) 1 : car RF)).
      + intros x y. cbn [car RF]. rewrite one_dist. unfold h. now rewrite mx_0, gm_0.
      + exact (psd_pull (fun a b : unit -> R => matern_half p (sqrt (sqdist [tt] (fun _ => w) a b)) - c * moment p (sqrt (sqdist [tt] (fun _ => w) a b) / 2) 1 : car RF) (fun (x : R) (_ : unit) => x) P). }
  rewrite (form_ext (lk h) (fun x y => lk gm x y - c * lk mx x y)) in N by (intros x y; unfold lk, h; ring). rewrite form_sub, Z in N.
  set (G := fun u (x y : nat * R) => mA u * lk (hq (mc2 u)) x y).
  assert (EG : forall x y, lk mx x y = RInt (fun u => G u x y) (/ 2) 2).
  { intros x y. unfold lk, mx, G. pose proof (@RInt_scal R_CompleteNormedModule (fun u => mxg (fst x + fst y) u (snd x - snd y)) (/ 2) 2 ((-1) ^ fst y)) as E.
    etransitivity; [symmetry; apply E; apply cont_ex; exact (cont2_left _ _ (mxg_cont _))|]. apply RInt_ext. intros u _. unfold scal. cbn -[hq lk mxg]. unfold mult. cbn -[hq lk mxg]. unfold mxg, lk. ring. }
  rewrite (form_ext (lk mx) _ l EG) in N.
  assert (CG : forall x y, cont (fun u => G u x y)).
  { intros x y u. unfold G, lk. apply (continuous_ext (fun u => (-1) ^ fst y * mxg (fst x + fst y) u (snd x - snd y))); [intros v; unfold mxg; match goal with |- @eq _ ?a ?b => change (@eq R a b) end; ring|].
    apply (continuous_scal (fun _ => (-1) ^ fst y) (fun u => mxg (fst x + fst y) u (snd x - snd y))); [apply continuous_const|]. exact (cont2_left (mxg (fst x + fst y)) _ (mxg_cont _) u). }
  pose proof (form_int G l (/ 2) 2 (fun q r _ _ => cont_ex _ _ _ (CG (snd q) (snd r)))) as I.
  assert (FG : forall u, form (G u) l = mA u * form (lk (hq (mc2 u))) l) by (intros u; apply form_scal).
  destruct (Req_dec (form (lk (hq (mc2 1))) l) 0) as [H1|H1]; [exact (hq_strict (mc2 1) (mc2_pos 1) l (fun _ _ => Logic.I) H1)|exfalso].
  assert (Pos : forall u, 0 < form (G u) l).
  { intros u. rewrite FG. apply Rmult_lt_0_compat; [apply mA_pos|]. destruct (hq_form (mc2 u) l) as [Q|Q]; [left; apply mc2_pos|exact Q|exfalso]. apply H1. symmetry in Q.
    pose proof (hq_strict (mc2 u) (mc2_pos u) l (fun _ _ => Logic.I) Q) as V. apply vanish_form, V. }
  assert (0 < form (fun x y => RInt (fun u => G u x y) (/ 2) 2) l).
  { rewrite <- (is_RInt_unique _ _ _ _ I). apply RInt_gt_0; [lra|intros; apply Pos|]. intros u Hu. apply cont_form. intros q r _ _. apply CG. }
  nra.
Qed.
End Mat.
