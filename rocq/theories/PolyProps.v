(** Property theorems C01-C04. *)
From Coq Require Import List Reals Lra Lia Arith Qcanon QArith Qreals.
From Coquelicot Require Import Coquelicot.
From Verif Require Import Base PolyModel PolySpec PolyProofs PolyClassModel PolyCalc.
Import ListNotations.
Open Scope R_scope.

(** C01: constructors give valid objects whose value is the power sum of the
    given coefficients, also for the empty tuple. *)
Theorem C01_make_float_value : forall cs x,
  py_valid (make_float cs) /\ py_eval (make_float cs) x = @power_sum RF cs x.
Proof. exact (fun cs x => conj (wf_mkpoly RF cs) (peval_mkpoly RF RF_laws cs x)). Qed.
Print Assumptions C01_make_float_value.

Lemma make_rational_value cs x :
  py_valid (make_rational cs) /\
  py_eval (make_rational cs) x = @power_sum RF (map Qc2R cs) x.
Proof.
  split.
  - apply py_valid_rat. apply (wf_mkpoly QcF).
  - unfold py_eval, make_rational. cbn [float_coeffs]. rewrite m_mkpoly.
    apply (peval_mkpoly RF RF_laws).
Qed.
Theorem C01_make_rational_value : forall cs x,
  py_valid (make_rational cs) /\
  py_eval (make_rational cs) x = @power_sum RF (map Qc2R cs) x.
Proof. exact make_rational_value. Qed.
Print Assumptions C01_make_rational_value.

Theorem C01_add : forall p q x, py_valid p -> py_valid q ->
  py_eval (py_add p q) x = py_eval p x + py_eval q x.
Proof. exact py_eval_add. Qed.
Print Assumptions C01_add.

Theorem C01_sub : forall p q x, py_valid p -> py_valid q ->
  py_eval (py_sub p q) x = py_eval p x - py_eval q x.
Proof. exact py_eval_sub. Qed.
Print Assumptions C01_sub.

Theorem C01_neg : forall p x, py_valid p -> py_eval (py_neg p) x = - py_eval p x.
Proof. exact py_eval_neg. Qed.
Print Assumptions C01_neg.

Theorem C01_scale : forall s p x, py_valid p ->
  py_eval (py_scale s p) x = scalar_value s * py_eval p x.
Proof. exact py_eval_scale. Qed.
Print Assumptions C01_scale.

Theorem C01_add_constant : forall p c x, py_valid p ->
  py_eval (py_add_const p c) x = py_eval p x + c.
Proof. exact py_eval_add_const. Qed.
Print Assumptions C01_add_constant.

(** Product and monomial multiple of rational polynomials, evaluated. *)
Lemma eval_rat_mul p q x : py_valid (PRat p) -> py_valid (PRat q) ->
  py_eval (PRat (@pmul QcF p q)) x = py_eval (PRat p) x * py_eval (PRat q) x.
Proof.
  intros Hp Hq. unfold py_eval. cbn [float_coeffs]. rewrite m_pmul.
  apply (eval_pmul RF RF_laws); assumption.
Qed.
Theorem C01_mul : forall p q x, py_valid (PRat p) -> py_valid (PRat q) ->
  py_eval (PRat (@pmul QcF p q)) x = py_eval (PRat p) x * py_eval (PRat q) x.
Proof. exact eval_rat_mul. Qed.
Print Assumptions C01_mul.

Lemma eval_rat_shift p n x : py_valid (PRat p) ->
  py_eval (PRat (@pshift QcF p n)) x = py_eval (PRat p) x * x ^ n.
Proof.
  intros Hp. unfold py_eval. cbn [float_coeffs]. rewrite m_pshift.
  rewrite <- fpow_R. apply (eval_pshift RF RF_laws); assumption.
Qed.
Theorem C01_mul_monomial : forall p n x, py_valid (PRat p) ->
  py_eval (PRat (@pshift QcF p n)) x = py_eval (PRat p) x * x ^ n.
Proof. exact eval_rat_shift. Qed.
Print Assumptions C01_mul_monomial.

(** Exactness: the coefficients of a product are the rational convolution. *)
Theorem C01_mul_coefficients : forall p q : poly QcF, p <> [] -> q <> [] -> forall k,
  coefficient (pmul p q) k = convolution (coefficient p) (coefficient q) k.
Proof. exact (pmul_coef QcF QcF_laws). Qed.
Print Assumptions C01_mul_coefficients.

(** Degrees reported by the results. *)
Theorem C01_degrees : forall p q : poly QcF, p <> [] -> q <> [] -> forall c n,
  pdegree (padd p q) = Nat.max (pdegree p) (pdegree q) /\
  pdegree (psub p q) = Nat.max (pdegree p) (pdegree q) /\
  pdegree (pneg p) = pdegree p /\
  pdegree (pscale c p) = pdegree p /\
  pdegree (padd_const p c) = pdegree p /\
  pdegree (pmul p q) = (pdegree p + pdegree q)%nat /\
  pdegree (pshift p n) = (pdegree p + n)%nat /\
  pdegree (pdiff p) = (pdegree p - 1)%nat /\
  pdegree (pintegrate p) = S (pdegree p).
Proof.
  exact (fun p q Hp Hq c n =>
    conj (degree_padd QcF p q Hp Hq) (conj (degree_psub QcF p q Hp Hq)
    (conj (degree_pneg QcF p Hp) (conj (degree_pscale QcF c p Hp)
    (conj (degree_padd_const QcF c p Hp) (conj (degree_pmul QcF p q Hp Hq)
    (conj (degree_pshift QcF p n Hp) (conj (degree_pdiff QcF p Hp)
      (degree_pintegrate QcF p Hp))))))))).
Qed.
Print Assumptions C01_degrees.

(** Class of the result: exact arithmetic is kept exactly when both operands
    are rational. *)
Lemma rational_closed p q s :
  ((exists c, py_add p q = PRat c) <-> (exists a, p = PRat a) /\ (exists b, q = PRat b)) /\
  ((exists c, py_sub p q = PRat c) <-> (exists a, p = PRat a) /\ (exists b, q = PRat b)) /\
  ((exists c, py_scale s p = PRat c) <-> (exists a, p = PRat a) /\ (forall r, s <> SFloat r)).
Proof.
  split; [|split].
  - destruct p as [a|a], q as [b|b]; cbn; split; intros H; try (destruct H as [c H]; discriminate);
      try (destruct H as [[c H] [d H']]; discriminate); eauto.
  - destruct p as [a|a], q as [b|b]; cbn; split; intros H; try (destruct H as [c H]; discriminate);
      try (destruct H as [[c H] [d H']]; discriminate); eauto.
  - destruct p as [a|a], s as [z|r|r]; cbn; split; intros H; try (destruct H as [c H]; discriminate);
      try (destruct H as [[c H] H']; discriminate); eauto;
      try (split; [eauto|intros; discriminate]).
    destruct H as [_ H]. exfalso. exact (H r eq_refl).
Qed.
Theorem C01_rational_closed : forall p q s,
  ((exists c, py_add p q = PRat c) <-> (exists a, p = PRat a) /\ (exists b, q = PRat b)) /\
  ((exists c, py_sub p q = PRat c) <-> (exists a, p = PRat a) /\ (exists b, q = PRat b)) /\
  ((exists c, py_scale s p = PRat c) <-> (exists a, p = PRat a) /\ (forall r, s <> SFloat r)).
Proof. exact rational_closed. Qed.
Print Assumptions C01_rational_closed.

(** Non-vacuity: a float and a rational polynomial of different degrees. *)
Example C01_example :
  py_valid (make_float [1; 2]) /\ py_valid (make_rational [Q2Qc (1#2); 0%Qc; Q2Qc 3]) /\
  py_eval (py_add (make_float [1; 2]) (make_rational [Q2Qc (1#2); 0%Qc; Q2Qc 3])) 2 = 5 + (1/2 + 3 * 4).
Proof.
  split; [discriminate|]. split; [discriminate|].
  rewrite py_eval_add by discriminate.
  rewrite (proj2 (C01_make_float_value _ _)), (proj2 (C01_make_rational_value _ _)).
  cbn [map]. unfold Qc2R. cbn [this Q2Qc].
  rewrite !RPS_cons, !RPS_nil. cbn. unfold Q2R. cbn. lra.
Qed.

(** C02: calculus. *)
Theorem C02_differentiate : forall p x, py_valid p ->
  is_derive (py_eval p) x (py_eval (py_diff p) x).
Proof. exact py_diff_is_derive. Qed.
Print Assumptions C02_differentiate.

Theorem C02_integrate : forall p, py_valid p ->
  (forall x, is_derive (py_eval (py_integrate p)) x (py_eval p x)) /\
  py_eval (py_integrate p) 0 = 0.
Proof. exact (fun p Hp => conj (fun x => py_integrate_is_antideriv p x Hp) (py_integrate_0 p)). Qed.
Print Assumptions C02_integrate.

Theorem C02_differentiate_integrate : forall p, py_valid p -> py_diff (py_integrate p) = p.
Proof. exact py_diff_integrate. Qed.
Print Assumptions C02_differentiate_integrate.

Theorem C02_lebesgue_integral : forall p a b, py_valid p ->
  is_RInt (py_eval p) a b (poly_lebesgue a b p).
Proof. exact poly_lebesgue_is_RInt. Qed.
Print Assumptions C02_lebesgue_integral.

Theorem C02_coefficients : forall (p : poly QcF) i,
  coefficient (pdiff p) i = Qcmult (coefficient p (S i)) (@fnat QcF (S i)) /\
  coefficient (pintegrate p) i =
    match i with O => 0%Qc | S j => Qcdiv (coefficient p j) (@fnat QcF (S j)) end.
Proof. exact (fun p i => conj (pdiff_coef QcF QcF_laws p i) (pintegrate_coef QcF QcF_laws p i)). Qed.
Print Assumptions C02_coefficients.

Example C02_example : poly_lebesgue 0 2 (make_float [1; 3]) = 8.
Proof.
  unfold poly_lebesgue, py_eval, make_float, py_integrate, float_coeffs.
  cbn [mkpoly]. unfold pintegrate. rewrite !(peval_mkpoly RF RF_laws).
  cbn [enum_div Nat.add]. rewrite !(RPS_cons), !RPS_nil. cbn. lra.
Qed.

(** C03: division with remainder. *)
Theorem C03_divmod : forall p d : poly QcF, p <> [] -> d <> [] ->
  (last d (0%Qc : QcF) <> 0%Qc \/ (pdegree p < pdegree d)%nat) ->
  exists q r, pdivmod p d = Ok (q, r) /\ q <> [] /\ r <> []
    /\ (forall x, peval p x = Qcplus (Qcmult (peval q x) (peval d x)) (peval r x))
    /\ (forall i, (pdegree d <= i)%nat -> coefficient r i = 0%Qc)
    /\ pdegree r = pdegree p
    /\ pdegree q = (pdegree p - pdegree d)%nat.
Proof. exact (pdivmod_ok QcF QcF_laws). Qed.
Print Assumptions C03_divmod.

Theorem C03_divmod_zero_division : forall p d : poly QcF, p <> [] -> d <> [] ->
  last d (0%Qc : QcF) = 0%Qc -> (pdegree d <= pdegree p)%nat ->
  pdivmod p d = Err ZeroDivisionError.
Proof. exact (pdivmod_err QcF QcF_laws). Qed.
Print Assumptions C03_divmod_zero_division.

(** x^2 + 1 divided by x - 1: quotient x + 1, remainder 2. *)
Example C03_example :
  @pdivmod QcF [1%Qc; 0%Qc; 1%Qc] [Q2Qc (-1#1); 1%Qc]
  = Ok ([1%Qc; 1%Qc], [Q2Qc 2; 0%Qc; 0%Qc]).
Proof.
  vm_compute. reflexivity.
Qed.

(** The remainder keeps the degree of the dividend, so the usual statement
    "r.degree < d.degree" fails for the value reported by the API. *)
Lemma divmod_degree_refuted :
  exists (p d q r : poly QcF), p <> [] /\ d <> [] /\ last d (0%Qc : QcF) <> 0%Qc /\
    pdivmod p d = Ok (q, r) /\ ~ (pdegree r < pdegree d)%nat.
Proof.
  destruct (pdivmod_ok QcF QcF_laws [1%Qc; 0%Qc; 1%Qc] [Q2Qc (-1#1); 1%Qc]) as (q & r & H & _ & _ & _ & _ & Hr & _).
  - discriminate.
  - discriminate.
  - left. discriminate.
  - exists [1%Qc; 0%Qc; 1%Qc], [Q2Qc (-1#1); 1%Qc], q, r.
    split; [discriminate|]. split; [discriminate|]. split; [discriminate|].
    split; [exact H|]. rewrite Hr. cbn. lia.
Qed.
Theorem C03_remainder_degree_refuted :
  exists (p d q r : poly QcF), p <> [] /\ d <> [] /\ last d (0%Qc : QcF) <> 0%Qc /\
    pdivmod p d = Ok (q, r) /\ ~ (pdegree r < pdegree d)%nat.
Proof. exact divmod_degree_refuted. Qed.
Print Assumptions C03_remainder_degree_refuted.

(** C04: division by a monomial, for both classes. *)
Lemma py_floordiv_spec p n : py_valid p ->
  (forall q, py_floordiv p n = Ok q ->
     py_valid q /\ (forall x, py_eval q x * x ^ n = py_eval p x) /\
     (forall i, coefficient (float_coeffs q) i = coefficient (float_coeffs p) (i + n))) /\
  ((exists e, py_floordiv p n = Err e) <->
     ((py_degree p < n)%nat \/ exists i, (i < n)%nat /\ coefficient (float_coeffs p) i <> 0)) /\
  (forall e, py_floordiv p n = Err e -> e = ValueError).
Proof.
  intros Hp.
  assert (E : forall c, @pfloordiv_monomial RF (float_coeffs p) n = Ok c ->
      exists q, py_floordiv p n = Ok q /\ float_coeffs q = c).
  { intros c Hc. destruct p as [a|a]; cbn [py_floordiv float_coeffs] in *.
    - rewrite Hc. cbn. eexists. split; reflexivity.
    - rewrite m_floordiv in Hc. destruct (@pfloordiv_monomial QcF a n); [|discriminate].
      cbn in *. injection Hc as <-. eexists. split; reflexivity. }
  assert (E' : forall e, @pfloordiv_monomial RF (float_coeffs p) n = Err e ->
      py_floordiv p n = Err e).
  { intros c Hc. destruct p as [a|a]; cbn [py_floordiv float_coeffs] in *.
    - rewrite Hc. reflexivity.
    - rewrite m_floordiv in Hc. destruct (@pfloordiv_monomial QcF a n); [discriminate|cbn in *; congruence]. }
  destruct (@pfloordiv_monomial RF (float_coeffs p) n) as [c|e] eqn:H.
  - destruct (E c eq_refl) as [q [Hq Hc]].
    destruct (floordiv_ok RF RF_laws _ _ _ Hp H) as [Hs Hwf].
    split; [|split].
    + intros q' Hq'. rewrite Hq in Hq'. injection Hq' as <-.
      assert (Hv : py_valid q) by (unfold py_valid; rewrite Hc; exact Hwf).
      split; [exact Hv|]. split.
      * intros x. unfold py_eval. rewrite <- Hs, <- fpow_R, Hc. symmetry.
        apply (eval_pshift RF RF_laws). exact Hwf.
      * intros i. rewrite <- Hs, Hc, !(coefficient_nth RF).
        unfold pshift. rewrite (nth_mkpoly RF), (nth_repeat0_app RF).
        destruct (Nat.ltb_spec (i + n) n); [lia|]. f_equal. lia.
    + rewrite Hq. split; [intros [e He]; discriminate|].
      intros Hx. apply (floordiv_err RF RF_laws _ _ Hp) in Hx. destruct Hx as [e He].
      rewrite H in He. discriminate.
    + intros e He. rewrite Hq in He. discriminate.
  - rewrite (E' e eq_refl). split; [discriminate|]. split.
    + split; [intros _|intros _; eexists; reflexivity].
      apply (floordiv_err RF RF_laws _ _ Hp). exists e. exact H.
    + intros e' [= <-]. exact (floordiv_err_class RF _ _ _ H).
Qed.
Theorem C04_floordiv_monomial : forall p n, py_valid p ->
  (forall q, py_floordiv p n = Ok q ->
     py_valid q /\ (forall x, py_eval q x * x ^ n = py_eval p x) /\
     (forall i, coefficient (float_coeffs q) i = coefficient (float_coeffs p) (i + n))) /\
  ((exists e, py_floordiv p n = Err e) <->
     ((py_degree p < n)%nat \/ exists i, (i < n)%nat /\ coefficient (float_coeffs p) i <> 0)) /\
  (forall e, py_floordiv p n = Err e -> e = ValueError).
Proof. exact py_floordiv_spec. Qed.
Print Assumptions C04_floordiv_monomial.

Lemma monomial_init_spec z :
  monomial_init z = if Z.leb 0 z then Ok (Z.abs_nat z) else Err ValueError.
Proof.
  unfold monomial_init. destruct (Z.ltb_spec z 0), (Z.leb_spec 0 z); try lia; [reflexivity|].
  f_equal. lia.
Qed.
Theorem C04_monomial_degree : forall z,
  monomial_init z = if Z.leb 0 z then Ok (Z.abs_nat z) else Err ValueError.
Proof. exact monomial_init_spec. Qed.
Print Assumptions C04_monomial_degree.

Example C04_example :
  (exists q, py_floordiv (make_rational [0%Qc; 0%Qc; Q2Qc 3]) 1 = Ok q) /\
  py_floordiv (make_rational [1%Qc; 0%Qc; Q2Qc 3]) 1 = Err ValueError.
Proof. split; [eexists|]; reflexivity. Qed.

(** Monomials. *)
Theorem C01_monomial : forall n (x : R), monomial_eval (F := RF) n x = x ^ n.
Proof. intros n x. exact (fpow_R x n). Qed.
Print Assumptions C01_monomial.
