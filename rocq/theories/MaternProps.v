(** C34: the derivative polynomials of the half-integer Matérn profiles. *)
From Coq Require Import List Reals Lra Lia Bool Arith ZArith QArith Qcanon FunctionalExtensionality.
From Coquelicot Require Import Coquelicot.
From Verif Require Import Base PolyModel PolySpec PolyProofs PolyClassModel PolyCalc PolyProps NdArray FunExprModel KernelModel KernelSpec MaternPoly.
Import ListNotations.
Open Scope R_scope.

Theorem C34_profile : forall p r, matern_profile (HalfInt p) r = matern_half p r.
Proof. exact profile_half. Qed.
Print Assumptions C34_profile.

Lemma matern_half_E p : matern_half p = fun r => E p 0 r * exp (- r).
Proof. extensionality r. now rewrite <- profile_half. Qed.
Lemma derive_n_E p n : Derive_n (matern_half p) n = fun r => E p n r * exp (- r).
Proof.
  induction n as [|n IH]; [apply matern_half_E|].
  extensionality r. cbn [Derive_n]. rewrite IH. apply is_derive_unique, E_derive.
Qed.
Theorem C34_derivatives : forall p n r,
  is_derive_n (matern_half p) n r (py_eval (matern_poly p n) r * exp (- r)).
Proof.
  intros p [|n] r; cbn [is_derive_n]; [now rewrite matern_half_E|]. rewrite derive_n_E. apply E_derive.
Qed.
Print Assumptions C34_derivatives.

Lemma coeff_mc p n k : coefficient (float_coeffs (matern_poly p n)) k = mc p n k.
Proof. exact (coefficient_nth RF _ k). Qed.
(** Derivatives of odd order vanish at coinciding points exactly as long as they exist. *)
Lemma E_zero p n : E p n 0 = mc p n 0.
Proof.
  rewrite E_sum. destruct p; [cbn; ring|]. rewrite decomp_sum by lia. cbn [pow pred].
  rewrite (sum_eq _ (fun _ => 0)) by (intros; ring). rewrite sum_eq_R0 by (intros; reflexivity). ring.
Qed.
Theorem C34_odd : forall p j,
  Derive_n (matern_half p) (2 * j + 1) 0 = 0 <-> (j < p)%nat.
Proof. intros p j. rewrite derive_n_E, Ropp_0, exp_0, Rmult_1_r, E_zero. apply odd_vanish. Qed.
Print Assumptions C34_odd.

Lemma floordiv_cases p n : py_valid p -> (exists q, py_floordiv p n = Ok q) \/ py_floordiv p n = Err ValueError.
Proof. intros V. destruct (py_floordiv_spec p n V) as (_ & _ & X). destruct (py_floordiv p n) as [q|e]; [left; eauto|right]. now rewrite (X e eq_refl). Qed.
Lemma floordiv_ok p n : py_valid p -> (exists q, py_floordiv p n = Ok q) <->
  ((n <= py_degree p)%nat /\ forall i, (i < n)%nat -> coefficient (float_coeffs p) i = 0).
Proof.
  intros V. destruct (py_floordiv_spec p n V) as (_ & X & _). split.
  - intros (q & Hq). split.
    + destruct (le_lt_dec n (py_degree p)); [assumption|]. assert (W : exists e, py_floordiv p n = Err e) by (apply X; now left). destruct W. congruence.
    + intros i Hi. destruct (Req_dec (coefficient (float_coeffs p) i) 0) as [|N]; [assumption|].
      assert (W : exists e, py_floordiv p n = Err e) by (apply X; right; eauto). destruct W. congruence.
  - intros [D Z]. destruct (py_floordiv p n) as [q|e] eqn:EQ; [eauto|]. pose proof (proj1 X (ex_intro _ e eq_refl)) as W.
    destruct W as [W|(i & Hi & N)]; [lia|]. now elim N; apply Z.
Qed.
(** Dividing an odd derivative by the monomial succeeds exactly for sufficiently large [p]. *)
Lemma odd_div p j : (exists q, py_floordiv (matern_poly p (2 * j + 1)) 1 = Ok q) <-> (j < p)%nat.
Proof.
  rewrite floordiv_ok by apply matern_valid. rewrite matern_degree, <- odd_vanish, <- coeff_mc. split.
  - intros [_ Z]. apply Z. lia.
  - intros Z. split.
    + rewrite coeff_mc in Z. apply odd_vanish in Z. lia.
    + intros i Hi. replace i with 0%nat by lia. exact Z.
Qed.
Lemma length_negp cs : cs <> [] -> length (pneg (F := RF) cs) = length cs.
Proof. intros N. unfold pneg. rewrite length_mkpoly, map_length. destruct cs; [congruence|]. cbn. lia. Qed.
Lemma coefficient_neg p i : py_valid p -> coefficient (float_coeffs (py_neg p)) i = - coefficient (float_coeffs p) i.
Proof.
  intros V. rewrite !(coefficient_nth RF).
  assert (X : float_coeffs (py_neg p) = pneg (F := RF) (float_coeffs p)) by (destruct p; cbn; [reflexivity|apply m_pneg]).
  rewrite X. unfold pneg. pose proof (nth_mkpoly RF) as NM. rewrite NM. cbn.
  transitivity (nth i (map Ropp (float_coeffs p)) (- 0)); [now rewrite Ropp_0|]. exact (map_nth Ropp (float_coeffs p) 0 i).
Qed.
Lemma neg_degree p : py_valid p -> py_degree (py_neg p) = py_degree p.
Proof.
  intros V. unfold py_degree, pdegree.
  assert (X : float_coeffs (py_neg p) = pneg (F := RF) (float_coeffs p)) by (destruct p; cbn; [reflexivity|apply m_pneg]).
  rewrite X, length_negp by exact V. reflexivity.
Qed.
Lemma coefficient_add p q i : coefficient (float_coeffs (py_add p q)) i = coefficient (float_coeffs p) i + coefficient (float_coeffs q) i.
Proof.
  rewrite !(coefficient_nth RF).
  assert (X : float_coeffs (py_add p q) = padd (F := RF) (float_coeffs p) (float_coeffs q)) by (destruct p, q; cbn; try reflexivity; apply m_padd).
  rewrite X. unfold padd. pose proof (nth_mkpoly RF) as NM. rewrite NM. pose proof (nth_zl RF fadd) as NZ. rewrite NZ by (cbn; ring). reflexivity.
Qed.
Lemma degree_add p q : py_valid p -> py_valid q -> py_degree (py_add p q) = Nat.max (py_degree p) (py_degree q).
Proof.
  intros V W. unfold py_degree, pdegree.
  assert (X : float_coeffs (py_add p q) = padd (F := RF) (float_coeffs p) (float_coeffs q)) by (destruct p, q; cbn; try reflexivity; apply m_padd).
  rewrite X. unfold padd. rewrite length_mkpoly, length_zl. unfold py_valid in *. destruct (float_coeffs p), (float_coeffs q); try congruence. cbn [length]. lia.
Qed.
Lemma py_valid_neg p : py_valid p -> py_valid (py_neg p).
Proof.
  intros V. unfold py_valid. assert (X : float_coeffs (py_neg p) = pneg (F := RF) (float_coeffs p)) by (destruct p; cbn; [reflexivity|apply m_pneg]).
  rewrite X. apply mkpoly_nonnil.
Qed.
Lemma py_valid_add p q : py_valid (py_add p q).
Proof.
  unfold py_valid. assert (X : float_coeffs (py_add p q) = padd (F := RF) (float_coeffs p) (float_coeffs q)) by (destruct p, q; cbn; try reflexivity; apply m_padd).
  rewrite X. apply mkpoly_nonnil.
Qed.
Lemma npd_ok p : (exists q, py_floordiv (py_neg (matern_poly p 1)) 1 = Ok q) <-> (1 <= p)%nat.
Proof.
  pose proof (matern_valid p 1) as V. rewrite floordiv_ok by now apply py_valid_neg.
  rewrite neg_degree, matern_degree by exact V. split.
  - intros [H _]. exact H.
  - intros H. split; [exact H|]. intros i Hi. replace i with 0%nat by lia. rewrite coefficient_neg, coeff_mc by exact V.
    pose proof (proj2 (odd_vanish p 0)) as Z. cbn [Nat.mul Nat.add] in Z. rewrite Z by lia. exact Ropp_0.
Qed.
Lemma pd_ok p npd : py_floordiv (py_neg (matern_poly p 1)) 1 = Ok npd ->
  ((exists q, py_floordiv (py_add (matern_poly p 2) npd) 2 = Ok q) <-> (2 <= p)%nat).
Proof.
  intros H. pose proof (matern_valid p 1) as V.
  assert (P : (1 <= p)%nat) by (apply npd_ok; eauto).
  destruct (py_floordiv_spec _ 1 (py_valid_neg _ V)) as (S & _ & _). destruct (S _ H) as (Vn & _ & C). clear S.
  rewrite floordiv_ok by apply py_valid_add.
  assert (K0 : coefficient (float_coeffs (py_add (matern_poly p 2) npd)) 0 = 0).
  { rewrite coefficient_add, C, coefficient_neg, !coeff_mc by exact V. cbn [Nat.add]. rewrite (mc_S p 1 0). cbn [Nat.add].
    pose proof (proj2 (odd_vanish p 0)) as Z. cbn [Nat.mul Nat.add] in Z. rewrite Z by lia. change (INR 1) with 1. match goal with |- @eq _ ?a ?b => change (@eq R a b) end. ring. }
  assert (K1 : coefficient (float_coeffs (py_add (matern_poly p 2) npd)) 1 = mc p 3 0 / 2).
  { rewrite coefficient_add, C, coefficient_neg, !coeff_mc by exact V. cbn [Nat.add]. rewrite (mc_S p 2 0). cbn [Nat.add].
    rewrite (mc_S p 1 1), (mc_S p 1 0). cbn [Nat.add].
    pose proof (proj2 (odd_vanish p 0)) as Z. cbn [Nat.mul Nat.add] in Z. rewrite Z by lia. change (INR 1) with 1. change (INR 2) with 2. match goal with |- @eq _ ?a ?b => change (@eq R a b) end. field. }
  split.
  - intros [_ Z]. specialize (Z 1%nat ltac:(lia)). rewrite K1 in Z. assert (Z3 : mc p (2 * 1 + 1) 0 = 0) by (change (2 * 1 + 1)%nat with 3%nat; lra).
    apply odd_vanish in Z3. lia.
  - intros P2. split.
    + rewrite degree_add, matern_degree by (exact Vn || apply matern_valid). lia.
    + intros [|[|i]] Hi; [exact K0| |lia]. rewrite K1. pose proof (proj2 (odd_vanish p 1)) as Z. change (2 * 1 + 1)%nat with 3%nat in Z. rewrite Z by lia. match goal with |- @eq _ ?a ?b => change (@eq R a b) end. field.
Qed.
Theorem C34_divisions : forall p,
  (forall j, if (j <? p)%nat then exists q, py_floordiv (matern_poly p (2 * j + 1)) 1 = Ok q
             else py_floordiv (matern_poly p (2 * j + 1)) 1 = Err ValueError) /\
  (forall m dir reverse, mt_nu m = HalfInt p ->
     if (1 <=? p)%nat then exists c, mk_matdir m dir reverse = Ok c else mk_matdir m dir reverse = Err ValueError) /\
  (forall m dir0 dir1, mt_nu m = HalfInt p ->
     if (2 <=? p)%nat then exists c, mk_matdirdir m dir0 dir1 = Ok c else mk_matdirdir m dir0 dir1 = Err ValueError) /\
  (forall m dir w reverse, mt_nu m = HalfInt p -> size (mt_shape m) = 1%nat ->
     if (2 <=? p)%nat then exists c, mk_umatdirlap m dir w reverse = Ok c else mk_umatdirlap m dir w reverse = Err ValueError).
Proof.
  intros p. assert (G : forall j, if (j <? p)%nat then exists q, py_floordiv (matern_poly p (2 * j + 1)) 1 = Ok q else py_floordiv (matern_poly p (2 * j + 1)) 1 = Err ValueError).
  { intros j. destruct (Nat.ltb_spec j p) as [H|H]; [now apply odd_div|].
    destruct (floordiv_cases (matern_poly p (2 * j + 1)) 1 (matern_valid _ _)) as [X|X]; [|exact X]. apply odd_div in X. lia. }
  split; [exact G|]. split; [|split].
  - intros m dir r M. unfold mk_matdir. rewrite M. specialize (G 0%nat). cbn [Nat.mul Nat.add] in G. destruct p; cbn [Nat.leb Nat.ltb] in *.
    + now rewrite G.
    + destruct G as (q & ->). eexists. reflexivity.
  - intros m d0 d1 M. unfold mk_matdirdir. rewrite M.
    destruct (floordiv_cases (py_neg (matern_poly p 1)) 1) as [(q & Hq)|Hq]; [apply py_valid_neg, matern_valid| |].
    + rewrite Hq. cbn [bind]. pose proof (pd_ok p q Hq) as D. destruct (floordiv_cases (py_add (matern_poly p 2) q) 2) as [(t & Ht)|Ht]; [apply py_valid_add| |]; rewrite Ht in *; cbn [bind].
      * destruct (Nat.leb_spec 2 p) as [X|X]; [eauto|]. assert (2 <= p)%nat by (apply D; eauto). lia.
      * destruct (Nat.leb_spec 2 p) as [X|X]; [|reflexivity]. apply D in X as (? & ?). congruence.
    + rewrite Hq. cbn [bind]. destruct (Nat.leb_spec 2 p) as [X|X]; [|reflexivity]. assert (W : exists q, py_floordiv (py_neg (matern_poly p 1)) 1 = Ok q) by (apply npd_ok; lia).
      destruct W. congruence.
  - intros m d w r M S. unfold mk_umatdirlap, univariate. rewrite M, S. cbn [Nat.eqb negb]. specialize (G 1%nat). change (2 * 1 + 1)%nat with 3%nat in G.
    unfold Nat.ltb in G. destruct (2 <=? p)%nat; [destruct G as (q & ->); eexists; reflexivity|now rewrite G].
Qed.
Print Assumptions C34_divisions.
(** The profile of smoothness 3/2 is [(1 + r) exp(-r)], its second derivative [(r - 1) exp(-r)]. *)
Example C34_example : (forall r, matern_half 1 r = (1 + r) * exp (- r)) /\
  (forall r, is_derive_n (matern_half 1) 2 r ((r - 1) * exp (- r))).
Proof.
  split.
  - intros r. unfold matern_half. cbn. field.
  - intros r. pose proof (C34_derivatives 1 2 r) as D. change (py_eval (matern_poly 1 2) r) with (E 1 2 r) in D. rewrite E_sum in D.
    replace (r - 1) with (sum_f_R0 (fun k => mc 1 2 k * r ^ k) 1); [exact D|]. cbn [sum_f_R0]. rewrite !mc_S, !mc_0. unfold c0. cbn. field.
Qed.

(** The classes of derivatives exist for half-integer smoothness only, and the univariate
    ones for one coordinate only. *)
Theorem C34_half_integer_only : forall m v w r, (exists a b, mt_nu m = OtherNu a b) \/ size (mt_shape m) <> 1%nat ->
  mk_umatdirdir m v w = Err ValueError /\ mk_umatlap m v r = Err ValueError /\ mk_umatlaplap m v w = Err ValueError /\ mk_umatdirlap m v w r = Err ValueError /\
  ((exists a b, mt_nu m = OtherNu a b) -> mk_matdir m v r = Err ValueError /\ mk_matdirdir m v w = Err ValueError).
Proof.
  intros m v w r H. unfold mk_umatdirdir, mk_umatlap, mk_umatlaplap, mk_umatdirlap, mk_matdir, mk_matdirdir, univariate.
  destruct H as [(a & b & E)|H]; [rewrite !E; destruct (size (mt_shape m) =? 1)%nat; cbn [negb]; auto 10|].
  apply Nat.eqb_neq in H. rewrite H. cbn [negb]. repeat (split; [reflexivity|]). intros (a & b & ->). auto.
Qed.
Print Assumptions C34_half_integer_only.
