(** Antiderivatives of the Matérn profiles and the integrals built from them. *)
From Coq Require Import List Reals Lra Lia Bool Arith ZArith.
From Coquelicot Require Import Coquelicot.
From Verif Require Import Base NdArray PolyModel PolyProofs PolyClassModel PolyCalc FunExprModel FunExprProofs KernelModel KernelSpec
  MaternPoly MaternProps MaternProofs IntegralModel IntegralSpec.
Import ListNotations.
Open Scope R_scope.

(** ** Iterated derivatives of a polynomial *)
Fixpoint dn (i : nat) (q : pypoly) : pypoly := match i with O => q | S j => dn j (py_diff q) end.
Lemma dn_S i q : dn (S i) q = py_diff (dn i q).
Proof. revert q. induction i as [|i IH]; intros q; [reflexivity|]. cbn [dn]. rewrite <- IH. reflexivity. Qed.
Lemma dn_valid i q : py_valid q -> py_valid (dn i q).
Proof. intros V. destruct i; [exact V|]. rewrite dn_S. apply py_valid_diff. Qed.
Lemma dn_derive i q z : py_valid q -> is_derive (py_eval (dn i q)) z (py_eval (dn (S i) q) z).
Proof. intros V. rewrite dn_S. apply py_diff_is_derive. now apply dn_valid. Qed.
Definition cf (q : pypoly) (k : nat) : R := nth k (float_coeffs q) 0.
Lemma cf_diff q k : cf (py_diff q) k = INR (S k) * cf q (S k).
Proof.
  unfold cf. rewrite py_diff_coeffs. pose proof (coefficient_nth RF) as CN. rewrite <- !CN.
  pose proof (pdiff_coef RF RF_laws (float_coeffs q) k) as PD. etransitivity; [exact PD|].
  rewrite <- fnat_R. apply Rmult_comm.
Qed.
Lemma cf_dn i q n : (forall k, (n < k)%nat -> cf q k = 0) -> forall k, (n < k + i)%nat -> cf (dn i q) k = 0.
Proof.
  intros H. induction i as [|i IH]; intros k Hk; [apply H; lia|].
  rewrite dn_S, cf_diff, IH by lia. ring.
Qed.
Lemma eval_zero q z : py_valid q -> (forall k, cf q k = 0) -> py_eval q z = 0.
Proof.
  intros V H. unfold py_eval. pose proof (horner_correct RF RF_laws (float_coeffs q) z V) as HC.
  etransitivity; [exact HC|]. clear HC V. unfold cf in H. revert H. generalize (float_coeffs q). intros cs H.
  change (PolyCalc.RPS cs z = 0). induction cs as [|c cs IH]; [apply RPS_nil|].
  rewrite RPS_cons, (IH (fun k => H (S k))). pose proof (H 0%nat) as X. cbn in X. rewrite X. ring.
Qed.

(** ** The loops *)
Definition e (q : pypoly) (z : R) : R := py_eval q z - py_eval (py_diff q) z.
Lemma diff_add a b z : py_valid a -> py_valid b -> py_eval (py_diff (py_add a b)) z = py_eval (py_diff a) z + py_eval (py_diff b) z.
Proof.
  intros Va Vb. pose proof (py_diff_is_derive _ z (py_valid_add a b)) as D. apply is_derive_unique in D. rewrite <- D.
  rewrite (Derive_ext _ (fun z => py_eval a z + py_eval b z)) by (intros t; now apply py_eval_add).
  apply is_derive_unique. apply @is_derive_plus; now apply py_diff_is_derive.
Qed.
Lemma diff_scale s a z : py_valid a -> py_valid (py_scale s a) -> py_eval (py_diff (py_scale s a)) z = scalar_value s * py_eval (py_diff a) z.
Proof.
  intros Va Vs. pose proof (py_diff_is_derive _ z Vs) as D. apply is_derive_unique in D. rewrite <- D.
  rewrite (Derive_ext _ (fun z => scalar_value s * py_eval a z)) by (intros t; now apply py_eval_scale).
  apply is_derive_unique. apply @is_derive_scal. now apply py_diff_is_derive.
Qed.
Lemma scale_valid s a : py_valid a -> py_valid (py_scale s a).
Proof. apply py_scale_valid. Qed.
Lemma loop1_valid n : forall q acc, py_valid acc -> py_valid (anti_loop n q acc).
Proof. induction n as [|n IH]; intros q acc V; [exact V|]. cbn [anti_loop]. apply IH, py_valid_add. Qed.
Lemma loop1_acc n : forall q a b z, py_valid a -> py_valid b ->
  py_eval (anti_loop n q a) z - py_eval a z = py_eval (anti_loop n q b) z - py_eval b z.
Proof.
  induction n as [|n IH]; intros q a b z Va Vb; cbn [anti_loop]; [ring|].
  pose proof (IH (py_diff q) (py_add a (py_diff q)) (py_add b (py_diff q)) z (py_valid_add _ _) (py_valid_add _ _)) as X.
  rewrite !py_eval_add in X by (assumption || apply py_valid_diff). lra.
Qed.
Lemma loop1 n : forall q acc z, py_valid q -> py_valid acc ->
  e (anti_loop n q acc) z = e acc z + py_eval (py_diff q) z - py_eval (dn (S n) q) z.
Proof.
  induction n as [|n IH]; intros q acc z Vq Va; cbn [anti_loop].
  - cbn [dn]. ring.
  - rewrite IH by (apply py_valid_diff || apply py_valid_add). unfold e at 1.
    rewrite py_eval_add, diff_add by (assumption || apply py_valid_diff). unfold e. cbn [dn]. ring.
Qed.
Lemma loop2_valid is : forall q acc, py_valid acc -> py_valid (anti2_loop is q acc).
Proof. induction is as [|i is IH]; intros q acc V; [exact V|]. cbn [anti2_loop]. apply IH, py_valid_add. Qed.
Lemma loop2 n : forall i q acc z, py_valid q -> py_valid acc ->
  e (anti2_loop (seq i n) q acc) z = e acc z + INR i * py_eval (py_diff q) z
   + (py_eval (anti_loop n q acc) z - py_eval acc z) - INR (i + n) * py_eval (dn (S n) q) z.
Proof.
  induction n as [|n IH]; intros i q acc z Vq Va.
  - cbn [seq anti2_loop anti_loop dn]. rewrite Nat.add_0_r. ring.
  - cbn [seq anti2_loop anti_loop]. set (q' := py_diff q). assert (V' : py_valid q') by apply py_valid_diff.
    set (sc := py_scale (SInt (Z.of_nat (i + 1))) q'). assert (Vs : py_valid sc) by now apply scale_valid.
    rewrite IH by (assumption || apply py_valid_add).
    rewrite (loop1_acc n q' (py_add acc sc) (py_add acc q') z) by apply py_valid_add. unfold e at 1.
    rewrite !py_eval_add, diff_add by assumption. unfold sc. rewrite py_eval_scale, diff_scale by assumption. fold sc.
    cbn [scalar_value]. rewrite <- INR_IZR_INZ. unfold e. cbn [dn]. fold q'.
    replace (S i + n)%nat with (i + S n)%nat by lia. rewrite S_INR, plus_INR. cbn [INR]. ring.
Qed.

Section Anti.
Variable p : nat.
Let P := make_rational (half_integer_coefficients p).
Lemma P_valid : py_valid P. Proof. apply (matern_valid p 0). Qed.
Lemma P_top z : py_eval (dn (S p) P) z = 0.
Proof.
  apply eval_zero; [apply dn_valid, P_valid|]. intros k. apply cf_dn with (n := p); [|lia].
  intros j Hj. apply (mc_beyond p 0 j Hj).
Qed.
Lemma anti_valid : py_valid (anti_poly p). Proof. apply loop1_valid, P_valid. Qed.
Lemma anti2_valid : py_valid (anti2_poly p). Proof. apply loop2_valid, P_valid. Qed.
Lemma anti_e z : e (anti_poly p) z = E p 0 z.
Proof. unfold anti_poly. fold P. rewrite loop1 by apply P_valid. rewrite P_top. unfold e, E. cbn [matern_poly]. fold P. ring. Qed.
Lemma anti2_e z : e (anti2_poly p) z = py_eval (anti_poly p) z.
Proof. unfold anti2_poly, anti_poly. fold P. rewrite loop2 by apply P_valid. rewrite P_top. unfold e. cbn [INR]. ring. Qed.
Lemma s_pos : 0 < sqrt_2nu p.
Proof. apply sqrt_lt_R0. apply lt_0_INR. lia. Qed.
Lemma s_sq : sqrt_2nu p * sqrt_2nu p = INR (2 * p + 1).
Proof. apply sqrt_sqrt. apply pos_INR. Qed.
Lemma s_eq : sqrt_2nu p = sqrt (2 * INR p + 1).
Proof. unfold sqrt_2nu. f_equal. rewrite plus_INR, mult_INR. cbn [INR]. ring. Qed.
Lemma pe_derive q c r : py_valid q ->
  is_derive (fun r => exp (- sqrt_2nu p * r) * py_eval q (sqrt_2nu p * r) * c) r (- sqrt_2nu p * (e q (sqrt_2nu p * r) * exp (- (sqrt_2nu p * r))) * c).
Proof.
  intros V. set (s := sqrt_2nu p).
  pose proof (poly_exp_derive q (s * r) V) as D.
  assert (L : is_derive (fun r => s * r) r s) by (auto_derive; [trivial|ring]).
  pose proof (is_derive_comp _ _ _ _ _ D L) as C. cbn beta in C.
  apply is_derive_ext with (f := fun r => c * (py_eval q (s * r) * exp (- (s * r)))).
  { intros t. change R in t. replace (- s * t) with (- (s * t)) by ring. match goal with |- @eq _ ?a ?b => change (@eq R a b) end. ring. }
  match goal with |- is_derive _ _ ?v => replace v with (c * scal s ((py_eval (py_diff q) (s * r) - py_eval q (s * r)) * exp (- (s * r)))) end.
  2:{ unfold scal; cbn; unfold mult; cbn. unfold e. ring. }
  apply @is_derive_scal. exact C.
Qed.
Lemma anti_derive r : is_derive (anti_eval p) r (matern_half p (sqrt_2nu p * r)).
Proof.
  pose proof (pe_derive (anti_poly p) (neg_inv_sqrt_2nu p) r anti_valid) as D.
  apply is_derive_ext with (f := fun r => exp (- sqrt_2nu p * r) * py_eval (anti_poly p) (sqrt_2nu p * r) * neg_inv_sqrt_2nu p + anti_C1 p).
  { intros t. unfold anti_eval. match goal with |- @eq _ ?a ?b => change (@eq R a b) end. ring. }
  match goal with |- is_derive _ _ ?v => replace v with ((- sqrt_2nu p * (e (anti_poly p) (sqrt_2nu p * r) * exp (- (sqrt_2nu p * r))) * neg_inv_sqrt_2nu p) + 0) end.
  { apply @is_derive_plus; [exact D|]. apply is_derive_Reals. apply derivable_pt_lim_const. }
  rewrite <- profile_half. unfold matern_profile. rewrite anti_e. unfold E, neg_inv_sqrt_2nu. cbn [matern_poly]. pose proof s_pos. field. lra.
Qed.
Lemma coeff_eval q : py_valid q -> py_eval q 0 = coeff0 q.
Proof.
  intros V. unfold py_eval. pose proof (horner_correct RF RF_laws (float_coeffs q) 0 V) as H. etransitivity; [exact H|].
  unfold coeff0. change (RPS (float_coeffs q) 0 = @nth R 0 (float_coeffs q) 0). destruct (float_coeffs q) as [|c cs]; [reflexivity|].
  rewrite RPS_cons. cbn. ring.
Qed.
Lemma anti_0 : anti_eval p 0 = 0.
Proof.
  unfold anti_eval, anti_C1. rewrite !Rmult_0_r, exp_0, coeff_eval by apply anti_valid. ring.
Qed.
Lemma anti2_derive r : is_derive (anti2_eval p) r (anti_eval p r).
Proof.
  pose proof (pe_derive (anti2_poly p) (inv_2nu p) r anti2_valid) as D.
  apply is_derive_ext with (f := fun r => exp (- sqrt_2nu p * r) * py_eval (anti2_poly p) (sqrt_2nu p * r) * inv_2nu p + (anti_C1 p * r + anti2_C2 p)).
  { intros t. unfold anti2_eval. match goal with |- @eq _ ?a ?b => change (@eq R a b) end. ring. }
  match goal with |- is_derive _ _ ?v => replace v with ((- sqrt_2nu p * (e (anti2_poly p) (sqrt_2nu p * r) * exp (- (sqrt_2nu p * r))) * inv_2nu p) + anti_C1 p) end.
  { apply @is_derive_plus; [exact D|]. auto_derive; [trivial|ring]. }
  rewrite anti2_e. unfold anti_eval, neg_inv_sqrt_2nu, inv_2nu. rewrite <- s_sq. pose proof s_pos.
  replace (- (sqrt_2nu p * r)) with (- sqrt_2nu p * r) by ring. field. lra.
Qed.
End Anti.

(** ** Integrals of a radial kernel *)
Section Radial.
Variables (l : R) (K F G : R -> R).
Hypothesis Hl : 0 < l.
Hypothesis HF : forall r, is_derive F r (K r).
Hypothesis HG : forall r, is_derive G r (F r).
Hypothesis F0 : F 0 = 0.
Hypothesis HK : forall r, continuous K r.
Lemma sg_neg b x : neg_if_less b x = sg ((b - x) / l).
Proof.
  unfold neg_if_less, sg. destruct (Rltb_spec b x) as [H|H], (Rlt_dec ((b - x) / l) 0) as [H'|H']; try reflexivity; exfalso.
  - apply H'. apply Rmult_lt_reg_r with l; [exact Hl|]. unfold Rdiv. rewrite Rmult_assoc, Rinv_l by lra. lra.
  - assert (X : 0 <= (b - x) * / l) by (apply Rmult_le_pos; [lra|left; now apply Rinv_0_lt_compat]). unfold Rdiv in H'. lra.
Qed.
Lemma abs_div u : Rabs u / l = Rabs (u / l).
Proof. unfold Rdiv. rewrite Rabs_mult, (Rabs_pos_eq (/ l)); [reflexivity|]. left. now apply Rinv_0_lt_compat. Qed.
Definition H1 (x u : R) : R := l * (neg_if_less u x * F (Rabs (u - x) / l)).
Lemma H1_derive x u : is_derive (H1 x) u (K (Rabs (u - x) / l)).
Proof.
  apply is_derive_ext with (f := fun u => l * (sg ((u - x) / l) * F (Rabs ((u - x) / l)))).
  { intros t. unfold H1. now rewrite sg_neg, abs_div. }
  assert (D : is_derive (fun u => (u - x) / l) u (/ l)) by (auto_derive; [lra|field; lra]).
  pose proof (is_derive_comp (fun v => sg v * F (Rabs v)) (fun u => (u - x) / l) u _ _ (odd_glue F K HF F0 ((u - x) / l)) D) as C. cbn beta in C.
  rewrite abs_div. replace (K (Rabs ((u - x) / l))) with (l * scal (/ l) (K (Rabs ((u - x) / l)))).
  - apply @is_derive_scal. exact C.
  - unfold scal; cbn; unfold mult; cbn. field. lra.
Qed.
Lemma abs_cont (f : R -> R) c : (forall r, continuous f r) -> forall u, continuous (fun u => f (Rabs (u - c) / l)) u.
Proof.
  intros Hf u. apply (continuous_comp (fun u => Rabs (u - c) / l) f); [|apply Hf].
  apply (continuous_mult (fun u => Rabs (u - c)) (fun _ => / l)); [|apply continuous_const].
  apply (continuous_comp (fun u => u - c) Rabs).
  - apply (continuous_minus (fun u => u) (fun _ => c)); [apply continuous_id|apply continuous_const].
  - apply continuous_Rabs.
Qed.
Lemma single_int a b x : is_RInt (fun u => K (Rabs (u - x) / l)) a b (radial_single l F a b x).
Proof.
  replace (radial_single l F a b x) with (minus (H1 x b) (H1 x a)).
  - apply (is_RInt_derive (H1 x) (fun u => K (Rabs (u - x) / l))); intros u _; [apply H1_derive|]. now apply abs_cont.
  - unfold minus, plus, opp; cbn. unfold H1, radial_single. ring.
Qed.
Definition H2 (c u : R) : R := l ^ 2 * G (Rabs (u - c) / l).
Lemma H2_derive c u : is_derive (H2 c) u (H1 c u).
Proof.
  apply is_derive_ext with (f := fun u => l ^ 2 * G (Rabs ((u - c) / l))).
  { intros t. unfold H2. now rewrite abs_div. }
  assert (D : is_derive (fun u => (u - c) / l) u (/ l)) by (auto_derive; [lra|field; lra]).
  pose proof (is_derive_comp (fun v => G (Rabs v)) (fun u => (u - c) / l) u _ _ (even_glue G F HG F0 ((u - c) / l)) D) as C. cbn beta in C.
  unfold H1. rewrite sg_neg, abs_div.
  match goal with |- is_derive _ _ ?v => replace v with (l ^ 2 * scal (/ l) (sg ((u - c) / l) * F (Rabs ((u - c) / l)))) end.
  - apply @is_derive_scal. exact C.
  - unfold scal; cbn; unfold mult; cbn. field. lra.
Qed.
Lemma F_odd c x : neg_if_less c x * F (Rabs (c - x) / l) = - (neg_if_less x c * F (Rabs (x - c) / l)).
Proof.
  rewrite (Rabs_minus_sym c x). unfold neg_if_less. destruct (Rltb_spec c x), (Rltb_spec x c); try lra.
  replace (x - c) with 0 by lra. rewrite Rabs_R0. unfold Rdiv. rewrite Rmult_0_l, F0. ring.
Qed.
Lemma single_H1 c d x : radial_single l F c d x = H1 c x - H1 d x.
Proof. unfold radial_single, H1. rewrite (F_odd d x), (F_odd c x). ring. Qed.
Lemma double_int a b c d : is_RInt (radial_single l F c d) a b (radial_double l G a b c d).
Proof.
  apply is_RInt_ext with (f := fun x => H1 c x - H1 d x). { intros x _. symmetry. apply single_H1. }
  replace (radial_double l G a b c d) with (minus (H2 c b - H2 d b) (H2 c a - H2 d a)).
  - apply (is_RInt_derive (fun x => H2 c x - H2 d x) (fun x => H1 c x - H1 d x)); intros u _.
    + apply @is_derive_minus; apply H2_derive.
    + apply (continuous_minus (H1 c) (H1 d)); apply ex_derive_continuous; eexists; apply H1_derive.
  - unfold minus, plus, opp; cbn. unfold H2, radial_double. ring.
Qed.
Lemma double_sym a b c d : radial_double l G a b c d = radial_double l G c d a b.
Proof. unfold radial_double. rewrite (Rabs_minus_sym b c), (Rabs_minus_sym a c), (Rabs_minus_sym b d), (Rabs_minus_sym a d). ring. Qed.
End Radial.

Lemma half_cont p r : continuous (fun r => matern_half p (sqrt_2nu p * r)) r.
Proof.
  apply (continuous_ext (fun r => E p 0 (sqrt_2nu p * r) * exp (- (sqrt_2nu p * r)))).
  { intros t. rewrite <- profile_half. reflexivity. }
  apply (continuous_comp (fun r => sqrt_2nu p * r) (fun z => E p 0 z * exp (- z))).
  - apply (continuous_mult (fun _ => sqrt_2nu p) (fun r => r)); [apply continuous_const|apply continuous_id].
  - apply (ex_derive_continuous (fun z => E p 0 z * exp (- z))). eexists. apply E_derive.
Qed.
Lemma line_radial p l x y : matern_line p l x y = matern_half p (sqrt_2nu p * (Rabs (y - x) / l)).
Proof. unfold matern_line. now rewrite s_eq, Rabs_minus_sym. Qed.
Lemma line_sym p l x y : matern_line p l x y = matern_line p l y x.
Proof. unfold matern_line. now rewrite Rabs_minus_sym. Qed.
Lemma mat_single p l arg a b x : 0 < l -> integral_in arg (matern_line p l) a b x (radial_single l (anti_eval p) a b x).
Proof.
  intros Hl. unfold integral_in. apply is_RInt_ext with (f := fun u => matern_half p (sqrt_2nu p * (Rabs (u - x) / l))).
  { intros u _. rewrite <- line_radial. destruct arg; [apply line_sym|reflexivity]. }
  apply (single_int l (fun r => matern_half p (sqrt_2nu p * r)) (anti_eval p) Hl).
  - apply anti_derive. - apply anti_0. - apply half_cont.
Qed.
Lemma mat_double p l a b c d : 0 < l -> is_RInt (radial_single l (anti_eval p) c d) a b (radial_double l (anti2_eval p) a b c d).
Proof. intros Hl. apply (double_int l (fun r => matern_half p (sqrt_2nu p * r)) (anti_eval p) (anti2_eval p) Hl); [apply anti_derive|apply anti2_derive|apply anti_0]. Qed.
Lemma mat_both p l a b c d : 0 < l -> integral_both (matern_line p l) a b c d (radial_double l (anti2_eval p) a b c d).
Proof.
  intros Hl. split.
  - exists (radial_single l (anti_eval p) c d). split; [intros x; now apply mat_single|now apply mat_double].
  - exists (radial_single l (anti_eval p) a b). split; [intros x; now apply mat_single|]. rewrite double_sym. now apply mat_double.
Qed.
