(** The polynomials of the derivatives of the half-integer Matérn profile. *)
From Coq Require Import List Reals Lra Lia Bool Arith ZArith QArith Qcanon FunctionalExtensionality.
From Coquelicot Require Import Coquelicot.
From Verif Require Import Base PolyModel PolySpec PolyProofs PolyClassModel PolyCalc PolyProps FunExprModel KernelModel KernelSpec.
Import ListNotations.
Open Scope R_scope.

Definition mc (p n k : nat) : R := nth k (float_coeffs (matern_poly p n)) 0.
Lemma matern_rat p n : exists cs, matern_poly p n = PRat cs /\ length cs = (p + 1)%nat /\ cs <> [].
Proof.
  induction n as [|n (cs & E & L & N)].
  - eexists. split; [reflexivity|]. rewrite length_mkpoly. unfold half_integer_coefficients. rewrite map_length, seq_length.
    split; [lia|]. apply mkpoly_nonnil.
  - cbn [matern_poly]. rewrite E. cbn [py_diff py_sub]. eexists. split; [reflexivity|]. split; [|apply mkpoly_nonnil].
    unfold psub. rewrite length_mkpoly, length_zl. pose proof (degree_pdiff QcF cs N) as D. unfold pdegree in D.
    assert (pdiff (F := QcF) cs <> []) by apply mkpoly_nonnil. destruct (pdiff (F := QcF) cs); [congruence|]. cbn [length] in *. lia.
Qed.
Lemma matern_valid p n : py_valid (matern_poly p n).
Proof. destruct (matern_rat p n) as (cs & -> & _ & N). now apply py_valid_rat. Qed.
Lemma matern_length p n : length (float_coeffs (matern_poly p n)) = (p + 1)%nat.
Proof. destruct (matern_rat p n) as (cs & -> & L & N). cbn. now rewrite map_length. Qed.
Lemma matern_degree p n : py_degree (matern_poly p n) = p.
Proof. unfold py_degree, pdegree. rewrite matern_length. lia. Qed.
Lemma mc_beyond p n k : (p < k)%nat -> mc p n k = 0.
Proof. intros H. apply nth_overflow. rewrite matern_length. lia. Qed.

Lemma mc_S p n k : mc p (S n) k = INR (k + 1) * mc p n (k + 1) - mc p n k.
Proof.
  unfold mc. cbn [matern_poly].
  assert (E : float_coeffs (py_sub (py_diff (matern_poly p n)) (matern_poly p n))
    = psub (F := RF) (pdiff (F := RF) (float_coeffs (matern_poly p n))) (float_coeffs (matern_poly p n))).
  { destruct (matern_rat p n) as (cs & -> & _). cbn [py_diff py_sub float_coeffs]. now rewrite m_psub, m_pdiff. }
  rewrite E. unfold psub. pose proof (nth_mkpoly RF) as NM. rewrite NM. pose proof (nth_zl RF fsub) as NZ. rewrite NZ by (cbn; ring).
  pose proof (coefficient_nth RF) as CN. rewrite <- !CN.
  pose proof (pdiff_coef RF RF_laws (float_coeffs (matern_poly p n)) k) as PD.
  replace (coefficient (F := RF) (pdiff (F := RF) (float_coeffs (matern_poly p n))) k)
    with (coefficient (F := RF) (float_coeffs (matern_poly p n)) (S k) * INR (S k)) by (symmetry; rewrite <- fnat_R; exact PD).
  replace (k + 1)%nat with (S k) by lia. change (@fsub RF) with Rminus. ring.
Qed.

Definition c0 (p k : nat) : R :=
  if (k <=? p)%nat then INR (fact p * fact (2 * p - k) * 2 ^ k) / INR (fact (2 * p) * fact k * fact (p - k)) else 0.
Lemma qnat_R n : Qc2R (qnat n) = INR n.
Proof. unfold qnat. rewrite Qc2R_Z. now rewrite <- INR_IZR_INZ. Qed.
Lemma qnat_nz n : n <> 0%nat -> qnat n <> 0%Qc.
Proof. intros H E. apply (f_equal Qc2R) in E. rewrite qnat_R, Qc2R_0 in E. apply H, INR_eq. exact E. Qed.
Lemma mc_0 p k : mc p 0 k = c0 p k.
Proof.
  unfold mc, c0. destruct (Nat.leb_spec k p) as [H|H].
  - cbn [matern_poly make_rational float_coeffs]. unfold half_integer_coefficients.
    pose proof (nth_mkpoly QcF) as NM. rewrite <- Qc2R_0, map_nth. rewrite NM.
    set (g := fun k0 : nat => _). assert (E : nth k (map g (seq 0 (p + 1))) 0%Qc = g k).
    { rewrite (nth_indep _ 0%Qc (g 0%nat)) by (rewrite map_length, seq_length; lia). rewrite map_nth, seq_nth by lia. reflexivity. }
    etransitivity; [apply f_equal; exact E|]. unfold g. rewrite Qc2R_div, !qnat_R; [reflexivity|].
    apply qnat_nz. pose proof (fact_neq_0 (2 * p)). pose proof (fact_neq_0 k). pose proof (fact_neq_0 (p - k)). lia.
  - apply nth_overflow. rewrite matern_length. lia.
Qed.
Ltac facts := repeat match goal with |- context[INR (fact ?n)] => lazymatch goal with H : INR (fact n) <> 0 |- _ => fail | _ => assert (INR (fact n) <> 0) by apply INR_fact_neq_0 end end.
Lemma INR_fact_S n : INR (fact (S n)) = (INR n + 1) * INR (fact n).
Proof. rewrite fact_simpl, mult_INR, S_INR. reflexivity. Qed.
(** The first derivative: a multiple of the monomial times the previous profile. *)
Lemma c0_rec q j : (INR j + 1 + 1) * c0 (S q) (S (S j)) - c0 (S q) (S j) = - (c0 q j / (2 * INR q + 1)).
Proof.
  unfold c0. destruct (Nat.leb_spec (S (S j)) (S q)) as [H|H].
  - destruct (Nat.leb_spec (S j) (S q)); [|lia]. destruct (Nat.leb_spec j q); [|lia].
    destruct (Nat.le_exists_sub (S j) q) as (d & -> & _); [lia|].
    replace (2 * S (d + S j) - S (S j))%nat with (S (S (2 * d + j))) by lia.
    replace (2 * S (d + S j) - S j)%nat with (S (S (S (2 * d + j)))) by lia.
    replace (2 * S (d + S j))%nat with (S (S (2 * (d + S j)))) by lia.
    replace (S (d + S j) - S (S j))%nat with d by lia. replace (S (d + S j) - S j)%nat with (S d) by lia.
    replace (2 * (d + S j) - j)%nat with (S (S (2 * d + j))) by lia. replace (d + S j - j)%nat with (S d) by lia.
    rewrite !mult_INR, !pow_INR. change (INR 2) with 2. rewrite !INR_fact_S, !S_INR, ?plus_INR, ?mult_INR, ?S_INR. change (INR 2) with 2. rewrite ?plus_INR, ?mult_INR, ?S_INR.
    change (INR 2) with 2. cbn [pow].
    pose proof (pos_INR d) as Pd. pose proof (pos_INR j) as Pj. pose proof (INR_fact_neq_0 (2 * d + j)) as F1.
    pose proof (INR_fact_neq_0 (d + S j)) as F2. pose proof (INR_fact_neq_0 (2 * (d + S j))) as F3. pose proof (INR_fact_neq_0 j) as F4. pose proof (INR_fact_neq_0 d) as F5.
    simpl (INR 0) in *. field. repeat split; try assumption; try lra.
  - destruct (Nat.leb_spec (S j) (S q)) as [H2|H2].
    + assert (j = q) by lia. subst j. destruct (Nat.leb_spec q q); [|lia].
      replace (2 * S q - S q)%nat with (S q) by lia. replace (2 * S q)%nat with (S (S (2 * q))) by lia. replace (S q - S q)%nat with 0%nat by lia. replace (q - q)%nat with 0%nat by lia.
      replace (2 * q - q)%nat with q by lia.
      rewrite !mult_INR, !pow_INR. change (INR 2) with 2. rewrite !INR_fact_S, !S_INR, ?mult_INR. change (INR 2) with 2. change (INR (fact 0)) with 1. cbn [pow].
      pose proof (pos_INR q) as Pq. pose proof (INR_fact_neq_0 (2 * q)) as F1. pose proof (INR_fact_neq_0 q) as F2.
      field. repeat split; try assumption; try lra.
    + destruct (Nat.leb_spec j q); [lia|]. unfold Rdiv. ring.
Qed.
Definition shifted (f : nat -> R) (k : nat) : R := match k with O => 0 | S j => f j end.
Lemma mc_1 q k : mc (S q) 1 k = - (shifted (mc q 0) k / (2 * INR q + 1)).
Proof.
  rewrite mc_S, !mc_0. destruct k as [|j]; cbn [shifted].
  - unfold c0. cbn [Nat.add Nat.leb]. change (INR 1) with 1.
    replace (2 * S q - 1)%nat with (S (2 * q)) by lia. replace (2 * S q - 0)%nat with (S (S (2 * q))) by lia. replace (2 * S q)%nat with (S (S (2 * q))) by lia.
    replace (S q - 1)%nat with q by lia. replace (S q - 0)%nat with (S q) by lia.
    rewrite !mult_INR, !pow_INR, !INR_fact_S, !S_INR, ?mult_INR. change (INR 2) with 2. change (fact 1) with 1%nat. change (INR (fact 0)) with 1. change (INR 1) with 1. cbn [pow].
    pose proof (pos_INR q) as Pq. pose proof (INR_fact_neq_0 (2 * q)) as F1. pose proof (INR_fact_neq_0 q) as F2. simpl (INR 0).
    field. repeat split; try assumption; try lra.
  - rewrite mc_0, <- c0_rec. replace (S j + 1)%nat with (S (S j)) by lia. now rewrite !S_INR.
Qed.
Lemma mc_rec q n k : mc (S q) (S n) k = - ((shifted (mc q n) k + INR n * mc q (n - 1) k) / (2 * INR q + 1)).
Proof.
  revert k. induction n as [|n IH]; intros k; [rewrite mc_1; simpl (INR 0); unfold Rdiv; ring|].
  rewrite mc_S, !IH. replace (S n - 1)%nat with n by lia. replace (k + 1)%nat with (S k) by lia. cbn [shifted].
  assert (N : INR n * ((INR k + 1) * mc q (n - 1) (S k) - mc q (n - 1) k) = INR n * mc q n k).
  { destruct n as [|n]; [simpl (INR 0); ring|]. replace (S n - 1)%nat with n by lia. rewrite (mc_S q n k). replace (k + 1)%nat with (S k) by lia. rewrite (S_INR k); reflexivity. }
  assert (D : shifted (mc q (S n)) k = INR k * mc q n k - shifted (mc q n) k).
  { destruct k as [|j]; cbn [shifted]; [simpl (INR 0); ring|]. rewrite mc_S. replace (j + 1)%nat with (S j) by lia. reflexivity. }
  rewrite D, !S_INR. unfold Rdiv.
  transitivity (- ((INR k + 1) * mc q n k - shifted (mc q n) k + INR n * ((INR k + 1) * mc q (n - 1) (S k) - mc q (n - 1) k)) * / (2 * INR q + 1)); [ring|].
  rewrite N. ring.
Qed.
Lemma mc_p0 n k : mc 0 n k = if (k =? 0)%nat then (-1) ^ n else 0.
Proof.
  revert k. induction n as [|n IH]; intros k.
  - rewrite mc_0. unfold c0. destruct k; cbn; [field|reflexivity].
  - rewrite mc_S, !IH. destruct k; cbn [Nat.eqb Nat.add pow]; ring.
Qed.
(** Odd derivatives at the origin vanish exactly below order [2p]. *)
Lemma odd_vanish p j : mc p (2 * j + 1) 0 = 0 <-> (j < p)%nat.
Proof.
  revert j. induction p as [|q IH]; intros j.
  - rewrite mc_p0. cbn [Nat.eqb]. split; [|lia]. intros H. exfalso. revert H. apply pow_nonzero. lra.
  - replace (2 * j + 1)%nat with (S (2 * j)) by lia. rewrite mc_rec. cbn [shifted]. pose proof (pos_INR q) as Pq.
    destruct j as [|j].
    + split; [lia|]. intros _. simpl (INR (2 * 0)). field. lra.
    + replace (2 * S j - 1)%nat with (2 * j + 1)%nat by lia. assert (J : INR (2 * S j) <> 0) by (apply not_0_INR; lia).
      split.
      * intros H. assert (mc q (2 * j + 1) 0 = 0); [|apply IH in H0; lia].
        apply (Rmult_eq_reg_l (INR (2 * S j) / (2 * INR q + 1))); [|].
        -- rewrite Rmult_0_r. replace 0 with (- 0) by ring. rewrite <- H. field. lra.
        -- unfold Rdiv. apply Rmult_integral_contrapositive_currified; [exact J|]. apply Rinv_neq_0_compat. lra.
      * intros H. assert (Hj : (j < q)%nat) by lia. apply IH in Hj. rewrite Hj. field. lra.
Qed.
(** The polynomials with the exponential are the derivatives. *)
Definition E (p n : nat) (z : R) : R := py_eval (matern_poly p n) z.
Lemma E_derive p n z : is_derive (fun z => E p n z * exp (- z)) z (E p (S n) z * exp (- z)).
Proof.
  unfold E. cbn [matern_poly]. rewrite py_eval_sub by (apply py_valid_diff || apply matern_valid).
  pose proof (py_diff_is_derive (matern_poly p n) z (matern_valid p n)) as D.
  assert (X : is_derive (fun z => exp (- z)) z (- exp (- z))).
  { auto_derive; [trivial|ring]. }
  pose proof (is_derive_mult (fun z => py_eval (matern_poly p n) z) (fun z => exp (- z)) z _ _ D X Rmult_comm) as M.
  match type of M with is_derive _ _ ?l => match goal with |- is_derive _ _ ?r => replace r with l; [exact M|] end end.
  unfold plus, mult; cbn. ring.
Qed.
Lemma E_sum p n z : E p n z = sum_f_R0 (fun k => mc p n k * z ^ k) p.
Proof.
  unfold E, py_eval. pose proof (matern_valid p n) as V.
  assert (NN : float_coeffs (matern_poly p n) <> []) by (intros X; pose proof (matern_length p n) as L; rewrite X in L; cbn in L; lia).
  pose proof (horner_correct RF RF_laws (float_coeffs (matern_poly p n)) z NN) as H.
  etransitivity; [exact H|]. clear H. pose proof (ps_as_sum RF RF_laws (float_coeffs (matern_poly p n)) z (S p)) as S. rewrite S by (rewrite matern_length; lia). clear S.
  assert (G : forall m, fsum (F := RF) (map (fun i => fmul (f := RF) (nth i (float_coeffs (matern_poly p n)) 0) (fpow (F := RF) z i)) (seq 0 (S m))) = sum_f_R0 (fun k => mc p n k * z ^ k) m).
  { induction m as [|m IH].
    - cbn [seq map sum_f_R0]. unfold fsum, mc. cbn. ring.
    - rewrite seq_S, map_app. pose proof (fsum_app RF RF_laws) as FA. rewrite FA, IH. cbn [sum_f_R0 map]. unfold fsum at 1. cbn [fold_right]. rewrite fpow_R. cbn. match goal with |- @eq _ ?a ?b => change (@eq R a b) end. change (mc p n (S m)) with (nth (S m) (float_coeffs (matern_poly p n)) 0). exact (f_equal (Rplus _) (Rplus_0_r _)). }
  apply G.
Qed.
Lemma sum_rev (f : nat -> R) p : sum_f_R0 f p = sum_f_R0 (fun i => f (p - i)%nat) p.
Proof.
  revert f. induction p as [|p IH]; intros f; [reflexivity|].
  rewrite decomp_sum by lia. cbn [pred]. rewrite (IH (fun i => f (S i))). cbn [sum_f_R0]. rewrite Nat.sub_diag, Rplus_comm. f_equal.
  apply sum_eq. intros i Hi. f_equal. lia.
Qed.
Lemma profile_half p r : matern_profile (HalfInt p) r = matern_half p r.
Proof.
  unfold matern_profile, matern_half. change (py_eval (make_rational (half_integer_coefficients p)) r) with (E p 0 r).
  rewrite E_sum, sum_rev, Rmult_comm, Rmult_assoc. f_equal. rewrite scal_sum. apply sum_eq. intros i Hi.
  rewrite mc_0. unfold c0. destruct (Nat.leb_spec (p - i) p); [|lia].
  replace (2 * p - (p - i))%nat with (p + i)%nat by lia. replace (p - (p - i))%nat with i by lia.
  rewrite !mult_INR, pow_INR. change (INR 2) with 2. rewrite Rpow_mult_distr.
  pose proof (INR_fact_neq_0 (2 * p)). pose proof (INR_fact_neq_0 i). pose proof (INR_fact_neq_0 (p - i)). field. auto.
Qed.
