(** C75 for half-integer Matern covariance functions. *)
From Coq Require Import List Reals Bool Arith ZArith Lia Lra Psatz.
From Coq.Floats Require Import SpecFloat.
From Flocq Require Import Core Relative Plus_error BinarySingleNaN.
From Verif Require Import Base NdArray PolyModel PolyClassModel FunExprModel DiffopModel DiffopProofs LfoModel KernelModel WendlandModel MaternPoly AdModel AdSpec AdKernels AdProps AdCovModel AdCovProofs FloatModel FloatProofs FloatProps FloatRoundSpec FloatRound FloatErr FloatRoundProps FloatRangeSpec FloatRangeProps FloatUniformProps.
Import ListNotations.
Open Scope R_scope.
#[local] Existing Instance FloatRound.Hprec.
#[local] Existing Instance FloatRound.Hmax.
Notation u := u64.
Notation eta := eta64.

(** ** A polynomial dominated by the exponential series *)
Section Profile.
Variables (c : nat -> R) (p : nat).
Hypothesis C0 : forall k, 0 <= c k.
Hypothesis C1 : c 0%nat <= 1.
Hypothesis CS : forall k, INR (S k) * c (S k) <= c k.
Definition P (n : nat) (z : R) : R := sum_f_R0 (fun k => c k * z ^ k) n.
Lemma c_fact k : c k <= / INR (fact k).
Proof.
  induction k as [|k IH]; [cbn; lra|]. assert (H := CS k). rewrite fact_simpl, mult_INR. assert (F := INR_fact_lt_0 k).
  assert (S0 : 0 < INR (S k)) by (apply lt_0_INR; lia). rewrite Rinv_mult. apply Rmult_le_reg_l with (INR (S k)); [exact S0|].
  rewrite <- Rmult_assoc, Rinv_r by lra. lra.
Qed.
Lemma P_pos n z : 0 <= z -> 0 <= P n z.
Proof. intros H. apply cond_pos_sum. intros k. apply Rmult_le_pos; [apply C0|now apply pow_le]. Qed.
Lemma exp_series n z : 0 <= z -> sum_f_R0 (fun k => / INR (fact k) * z ^ k) n <= exp z.
Proof.
  intros H. apply sum_incr.
  - unfold exp. destruct (exist_exp z) as [l Hl]. cbn [proj1_sig]. exact Hl.
  - intros k. apply Rmult_le_pos; [left; apply Rinv_0_lt_compat, INR_fact_lt_0|now apply pow_le].
Qed.
Lemma P_exp n z : 0 <= z -> P n z <= exp z.
Proof.
  intros H. eapply Rle_trans; [|apply (exp_series n z H)]. apply sum_Rle. intros k _. apply Rmult_le_compat_r; [now apply pow_le|apply c_fact].
Qed.
Lemma zP_exp n z : 0 <= z -> z * P n z <= INR (S n) * exp z.
Proof.
  intros H. unfold P. rewrite scal_sum.
  apply Rle_trans with (INR (S n) * sum_f_R0 (fun k => / INR (fact (S k)) * z ^ (S k)) n).
  - rewrite scal_sum. apply sum_Rle. intros k Hk. replace (c k * z ^ k * z) with (c k * z ^ S k) by (cbn; ring).
    rewrite (Rmult_comm _ (INR (S n))), <- Rmult_assoc. apply Rmult_le_compat_r; [now apply pow_le|].
    rewrite fact_simpl, mult_INR, Rinv_mult, <- Rmult_assoc. assert (F := c_fact k). assert (S0 : 0 < INR (S k)) by (apply lt_0_INR; lia).
    assert (I : INR (S k) <= INR (S n)) by (apply le_INR; lia). assert (Q := INR_fact_lt_0 k). apply Rinv_0_lt_compat in Q.
    apply Rle_trans with (1 * / INR (fact k)); [lra|]. apply Rmult_le_compat_r; [lra|].
    apply Rmult_le_reg_r with (INR (S k)); [exact S0|]. rewrite Rmult_assoc, Rinv_l by lra. lra.
  - apply Rmult_le_compat_l; [apply pos_INR|]. assert (E := exp_series (S n) z H). rewrite decomp_sum in E by lia. change (Init.Nat.pred (S n)) with n in E.
    assert (E0 : / INR (fact 0) * z ^ 0 = 1) by (cbn; field). rewrite E0 in E. eapply Rle_trans; [|exact E]. rewrite <- (Rplus_0_l (sum_f_R0 _ n)) at 1. apply Rplus_le_compat_r. lra.
Qed.
Lemma pow_diff a b k : 0 <= a -> a <= b -> b ^ S k - a ^ S k <= (b - a) * (INR (S k) * b ^ k).
Proof.
  intros Ha Hb. induction k as [|k IH]; [cbn; lra|]. rewrite (S_INR (S k)).
  replace (b ^ S (S k) - a ^ S (S k)) with (b * (b ^ S k - a ^ S k) + (b - a) * a ^ S k) by (cbn; ring).
  assert (A : a ^ S k <= b ^ S k) by (apply pow_incr; lra).
  replace ((b - a) * ((INR (S k) + 1) * b ^ S k)) with (b * ((b - a) * (INR (S k) * b ^ k)) + (b - a) * b ^ S k) by (cbn [pow]; ring).
  apply Rplus_le_compat; [apply Rmult_le_compat_l; lra|apply Rmult_le_compat_l; lra].
Qed.
Lemma P_diff n a b : 0 <= a -> a <= b -> 0 <= P n b - P n a /\ P (S n) b - P (S n) a <= (b - a) * P n b.
Proof.
  intros Ha Hb. assert (Mon : forall n, 0 <= P n b - P n a).
  { intros m. assert (P m a <= P m b); [|lra]. apply sum_Rle. intros k _. apply Rmult_le_compat_l; [apply C0|]. apply pow_incr. lra. }
  split; [apply Mon|].
  assert (T : forall k, c (S k) * b ^ S k - c (S k) * a ^ S k <= (b - a) * (c k * b ^ k)).
  { intros k. assert (D := pow_diff a b k Ha Hb). assert (B : 0 <= b ^ k) by (apply pow_le; lra). assert (X := C0 (S k)). assert (Y := CS k).
    rewrite <- Rmult_minus_distr_l. eapply Rle_trans; [apply Rmult_le_compat_l; [exact X|exact D]|].
    replace (c (S k) * ((b - a) * (INR (S k) * b ^ k))) with ((b - a) * ((INR (S k) * c (S k)) * b ^ k)) by ring.
    apply Rmult_le_compat_l; [lra|]. apply Rmult_le_compat_r; lra. }
  clear Mon. induction n as [|n IH].
  - unfold P. cbn [sum_f_R0]. assert (X := T 0%nat). cbn [pow] in *. lra.
  - unfold P in *. cbn [sum_f_R0] in *. assert (X := T (S n)). cbn [pow] in *. lra.
Qed.
Definition f (z : R) : R := P p z * exp (- z).
Lemma f_pos z : 0 <= z -> 0 <= f z.
Proof. intros H. apply Rmult_le_pos; [now apply P_pos|left; apply exp_pos]. Qed.
Lemma f_le1 z : 0 <= z -> f z <= 1.
Proof.
  intros H. unfold f. rewrite exp_Ropp. assert (X := P_exp p z H). assert (E := exp_pos z). apply Rmult_le_reg_r with (exp z); [exact E|].
  rewrite Rmult_assoc, Rinv_l by lra. lra.
Qed.
Lemma zf_le z : 0 <= z -> z * f z <= INR (S p).
Proof.
  intros H. unfold f. rewrite exp_Ropp. assert (X := zP_exp p z H). assert (E := exp_pos z). apply Rmult_le_reg_r with (exp z); [exact E|].
  rewrite <- Rmult_assoc, Rmult_assoc, Rinv_l by lra. lra.
Qed.
Lemma f_diff a b : 0 <= a -> a <= b -> - ((b - a) * f b) <= f a - f b <= (b - a) * f a.
Proof.
  intros Ha Hb. unfold f. destruct (P_diff p a b Ha Hb) as [M _]. assert (Ea := exp_pos (- a)). assert (Eb := exp_pos (- b)).
  assert (Pa := P_pos p a Ha). assert (Pb := P_pos p b ltac:(lra)).
  assert (D : P p b - P p a <= (b - a) * P p b).
  { destruct p as [|n]; [unfold P in *; cbn in *; assert (0 <= (b - a) * (c 0%nat * 1)) by (apply Rmult_le_pos; lra); lra|].
    destruct (P_diff n a b Ha Hb) as [_ D]. eapply Rle_trans; [exact D|]. apply Rmult_le_compat_l; [lra|].
    unfold P. cbn [sum_f_R0]. assert (0 <= c (S n) * b ^ S n) by (apply Rmult_le_pos; [apply C0|apply pow_le; lra]). lra. }
  assert (L : exp (- b) <= exp (- a)) by (destruct Hb as [Hb| ->]; [left; apply exp_increasing; lra|lra]).
  assert (G : exp (- a) * (1 - (b - a)) <= exp (- b)).
  { replace (- b) with (- a + - (b - a)) by ring. rewrite exp_plus. apply Rmult_le_compat_l; [lra|]. assert (X := exp_ge (- (b - a))). lra. }
  split.
  - assert (X : P p a * exp (- b) <= P p a * exp (- a)) by (apply Rmult_le_compat_l; lra).
    assert (Y : (P p b - P p a) * exp (- b) <= (b - a) * P p b * exp (- b)) by (apply Rmult_le_compat_r; lra). lra.
  - assert (X : P p a * exp (- b) <= P p b * exp (- b)) by (apply Rmult_le_compat_r; lra).
    assert (Y : P p a * (exp (- a) * (1 - (b - a))) <= P p a * exp (- b)) by (apply Rmult_le_compat_l; lra). lra.
Qed.
(** Insensitive to a relative error, uniformly *)
Lemma f_uniform d e s t : 0 <= s -> 0 <= t -> 0 <= d <= / 2 -> 0 <= e <= 1 -> Rabs (t - s) <= d * s + e ->
  Rabs (f t - f s) <= 2 * d * (INR (S p) + 1) + e.
Proof.
  intros Hs Ht Hd He H. apply Rabs_le_inv in H.
  assert (B : forall z, 0 <= z -> s * (1 - d) - e <= z -> (d * s + e) * f z <= 2 * d * (INR (S p) + 1) + e).
  { intros z Hz L. assert (F0 := f_pos z Hz). assert (F1 := f_le1 z Hz). assert (F2 := zf_le z Hz).
    assert (S2 : s <= 2 * (z + e)) by nra. assert (X : d * s * f z <= d * (2 * (z + e)) * f z) by (apply Rmult_le_compat_r; [lra|]; apply Rmult_le_compat_l; lra).
    assert (Y : d * (2 * (z * f z)) <= d * (2 * INR (S p))) by (apply Rmult_le_compat_l; lra).
    assert (Z : e * f z <= e * 1) by (apply Rmult_le_compat_l; lra). assert (W : d * (2 * (e * f z)) <= d * (2 * 1)) by (apply Rmult_le_compat_l; [lra|]; nra).
    lra. }
  assert (sd : 0 <= d * s) by (apply Rmult_le_pos; lra).
  assert (Bs := B s Hs ltac:(lra)). assert (Bt := B t Ht ltac:(lra)). assert (Fs := f_pos s Hs). assert (Ft := f_pos t Ht).
  apply Rabs_le. destruct (Rle_dec s t) as [L|L].
  - destruct (f_diff s t Hs L) as [X Y]. assert ((t - s) * f t <= (d * s + e) * f t) by (apply Rmult_le_compat_r; lra).
    assert ((t - s) * f s <= (d * s + e) * f s) by (apply Rmult_le_compat_r; lra). lra.
  - destruct (f_diff t s Ht ltac:(lra)) as [X Y]. assert ((s - t) * f t <= (d * s + e) * f t) by (apply Rmult_le_compat_r; lra).
    assert ((s - t) * f s <= (d * s + e) * f s) by (apply Rmult_le_compat_r; lra). lra.
Qed.
End Profile.

(** ** The coefficients *)
Lemma c0_nonneg p k : 0 <= c0 p k.
Proof. unfold c0. destruct (k <=? p)%nat; [|lra]. apply Rmult_le_pos; [apply pos_INR|]. left. apply Rinv_0_lt_compat, lt_0_INR. assert (A := lt_O_fact (2 * p)). assert (B := lt_O_fact k). assert (C := lt_O_fact (p - k)). repeat apply Nat.mul_pos_pos; assumption. Qed.
Lemma c0_head p : c0 p 0 = 1.
Proof.
  unfold c0. cbn [Nat.leb]. rewrite !Nat.sub_0_r. cbn [fact Nat.pow]. rewrite !mult_INR. change (INR 1) with 1.
  field. split; apply INR_fact_neq_0.
Qed.
Lemma c0_step p k : INR (S k) * c0 p (S k) <= c0 p k.
Proof.
  assert (N := c0_nonneg p k). unfold c0 at 1. destruct (Nat.leb_spec (S k) p) as [H|H]; [|rewrite Rmult_0_r; exact N].
  unfold c0. destruct (Nat.leb_spec k p) as [K|K]; [|lia].
  replace (2 * p - k)%nat with (S (2 * p - S k)) by lia. replace (p - k)%nat with (S (p - S k)) by lia.
  set (a := (2 * p - S k)%nat). set (b := (p - S k)%nat). assert (AB : (2 * S b <= S a)%nat) by (unfold a, b; lia).
  rewrite !mult_INR, !pow_INR. change (INR 2) with 2. rewrite !INR_fact_S. cbn [pow]. rewrite (S_INR k).
  assert (F1 := INR_fact_lt_0 p). assert (F2 := INR_fact_lt_0 (2 * p)). assert (F3 := INR_fact_lt_0 k). assert (F4 := INR_fact_lt_0 a). assert (F5 := INR_fact_lt_0 b).
  assert (Ik := pos_INR k). assert (Ia := pos_INR a). assert (Ib := pos_INR b). assert (T : 0 < 2 ^ k) by (apply pow_lt; lra).
  apply le_INR in AB. rewrite mult_INR, (S_INR a), (S_INR b) in AB. change (INR 2) with 2 in AB.
  set (X := INR (fact p) * INR (fact a) * 2 ^ k / (INR (fact (2 * p)) * INR (fact k) * INR (fact b))).
  assert (PX : 0 < X). { unfold X. apply Rdiv_lt_0_compat; repeat apply Rmult_lt_0_compat; assumption. }
  replace ((INR k + 1) * _) with (2 * X) by (unfold X; field; lra).
  match goal with |- _ <= ?r => replace r with ((INR a + 1) / (INR b + 1) * X) by (unfold X; field; lra) end.
  apply Rmult_le_compat_r; [lra|]. apply Rmult_le_reg_r with (INR b + 1); [lra|]. unfold Rdiv. rewrite Rmult_assoc, Rinv_l by lra. lra.
Qed.
Lemma poly_at_sum cs z : cs <> [] -> poly_at cs z = sum_f_R0 (fun k => nth k cs 0 * z ^ k) (length cs - 1).
Proof.
  induction cs as [|c cs IH]; [congruence|]. intros _. destruct cs as [|c' cs]; [cbn; ring|].
  replace (length (c :: c' :: cs) - 1)%nat with (S (length cs)) by (cbn; lia). rewrite decomp_sum by lia.
  change (Init.Nat.pred (S (length cs))) with (length cs). change (poly_at (c :: c' :: cs) z) with (c + z * poly_at (c' :: cs) z). rewrite IH by discriminate.
  replace (length (c' :: cs) - 1)%nat with (length cs) by (cbn; lia). rewrite scal_sum. f_equal; [cbn; ring|]. apply sum_eq. intros i _. cbn [nth pow]. ring.
Qed.
Notation mcoeffs p := (float_coeffs (make_rational (half_integer_coefficients p))).
Lemma poly_at_matern p z : poly_at (mcoeffs p) z = P (c0 p) p z.
Proof.
  assert (L : @length R (mcoeffs p) = (p + 1)%nat) by exact (matern_length p 0).
  rewrite poly_at_sum by (intros E; rewrite E in L; cbn in L; lia). rewrite L, Nat.add_sub. unfold P. apply sum_eq. intros k _. rewrite <- mc_0. reflexivity.
Qed.
Lemma profile_f p z : matern_profile (HalfInt p) z = f (c0 p) p z.
Proof.
  unfold matern_profile, f. f_equal. change (py_eval _ z) with (MaternPoly.E p 0 z). rewrite E_sum. unfold P. apply sum_eq. intros k _. now rewrite mc_0.
Qed.

(** ** Distances and Horner's method *)
Lemma sqrt_near d e s t : 0 <= s -> 0 <= t -> 0 <= d <= 1 -> 0 <= e -> Rabs (t - s) <= d * s + e -> Rabs (sqrt t - sqrt s) <= d * sqrt s + sqrt e.
Proof.
  intros Hs Ht Hd He H. apply Rabs_le_inv in H. assert (A := sqrt_sqrt s Hs). assert (B := sqrt_sqrt t Ht). assert (C := sqrt_sqrt e He).
  assert (A0 := sqrt_pos s). assert (B0 := sqrt_pos t). assert (C0 := sqrt_pos e). set (a := sqrt s) in *. set (b := sqrt t) in *. set (c := sqrt e) in *.
  clearbody a b c. subst s t e. apply Rabs_le. split.
  - apply Rnot_lt_le. intros K. assert (L : b + c < (1 - d) * a) by lra. assert (0 <= (1 - d) * a) by (apply Rmult_le_pos; lra).
    assert (M : (b + c) * (b + c) < ((1 - d) * a) * ((1 - d) * a)) by (apply Rmult_le_0_lt_compat; lra).
    assert (Q : (1 - d) * a * ((1 - d) * a) <= (1 - d) * (a * a)). { replace ((1 - d) * a * ((1 - d) * a)) with ((1 - d) * (a * a) - d * ((1 - d) * (a * a))) by ring. assert (0 <= d * ((1 - d) * (a * a))) by (repeat apply Rmult_le_pos; lra). lra. }
    assert (0 <= b * c) by (apply Rmult_le_pos; lra). lra.
  - apply Rnot_lt_le. intros K. assert (L : (1 + d) * a + c < b) by lra. assert (0 <= (1 + d) * a) by (apply Rmult_le_pos; lra).
    assert (M : ((1 + d) * a + c) * ((1 + d) * a + c) < b * b) by (apply Rmult_le_0_lt_compat; lra).
    assert (0 <= (1 + d) * a * c) by (apply Rmult_le_pos; lra). assert (0 <= d * ((1 + d) * (a * a))) by (repeat apply Rmult_le_pos; lra). lra.
Qed.
Lemma horner_near lb ue cs r : accurate lb ue -> cs <> [] -> (forall c, In c cs -> / 2 ^ 1022 <= c) -> valid r -> 0 <= val r ->
  let v := fhorner (map (l_cst lb) cs) r in valid v /\ (fin v -> 0 <= val v /\ 0 < poly_at cs (val r) /\ near (1 + 3 * (length cs - 1)) 0 (val v) (poly_at cs (val r))).
Proof.
  intros Acc N C Vr Pr. assert (U := u_lt). assert (T := eta_lt).
  assert (M : forall c, / 2 ^ 1022 <= c -> 0 < c /\ valid (l_cst lb c) /\ (fin (l_cst lb c) -> 0 <= val (l_cst lb c) /\ near 1 0 (val (l_cst lb c)) c)).
  { intros c Hc. assert (P : 0 < / 2 ^ 1022) by (apply Rinv_0_lt_compat, pow_lt; lra). destruct (proj1 (proj2 Acc) c) as [V E]. split; [lra|]. split; [exact V|].
    intros F. rewrite (E F). split; [apply rnd_nonneg; lra|]. apply near_cst. unfold normal. rewrite Rabs_pos_eq by lra. exact Hc. }
  assert (EU : eta <= u * / 2 ^ 1022). { unfold eta64, u64. rewrite <- Rinv_mult, <- pow_add. apply Rle_refl. }
  induction cs as [|c cs IH]; [congruence|]. destruct (M c (C c (or_introl eq_refl))) as (Pc & Vc & Ec). destruct cs as [|c' cs].
  - split; [exact Vc|]. intros F. destruct (Ec F) as [P1 N1]. split; [exact P1|]. cbn [poly_at length Nat.sub Nat.mul Nat.add]. rewrite Rmult_0_r, Rplus_0_r. auto.
  - destruct IH as [V IH]; [discriminate|intros; apply C; now right|].
    set (w := fhorner (map (l_cst lb) (c' :: cs)) r) in *. change (fhorner (map (l_cst lb) (c :: c' :: cs)) r) with (SFadd 53 1024 (SFmul 53 1024 w r) (l_cst lb c)).
    assert (Vm := valid_mul _ _ V Vr). split; [now apply valid_add|]. intros F. destruct (add_finite_args _ _ F) as [Fm Fc]. destruct (mul_finite_args _ _ Fm) as [Fw Fr].
    destruct (IH Fw) as (Pw & PA & Nw). destruct (Ec Fc) as [P1 N1]. rewrite (proj2 (add_ok _ _ Vm Vc) F).
    change (poly_at (c :: c' :: cs) (val r)) with (c + val r * poly_at (c' :: cs) (val r)). set (A := poly_at (c' :: cs) (val r)) in *.
    change (length (c :: c' :: cs)) with (S (length (c' :: cs))). set (k := (length (c' :: cs) - 1)%nat) in *.
    replace (S (length (c' :: cs)) - 1)%nat with (S k) by (unfold k; cbn; lia).
    assert (rA : 0 <= val r * A) by (apply Rmult_le_pos; lra).
    assert (Nm : near (S (1 + 3 * k)) eta (val (SFmul 53 1024 w r)) (A * val r)).
    { rewrite (proj2 (mul_ok _ _ V Vr) Fm). replace eta with ((1 + u) * 0 + eta) by ring. eapply near_step; [|apply rnd_error].
      replace (1 + 3 * k)%nat with ((1 + 3 * k) + 0)%nat by lia. apply near_mul; [exact Nw|apply near_refl]. }
    assert (Pm : 0 <= val (SFmul 53 1024 w r)) by (rewrite (proj2 (mul_ok _ _ V Vr) Fm); apply rnd_nonneg, Rmult_le_pos; lra).
    split; [apply rnd_nonneg; lra|]. split; [lra|].
    replace (1 + 3 * S k)%nat with (S (S (S (1 + 3 * k)))) by lia. replace 0 with ((1 + u) * 0 + 0) by ring. eapply near_step; [|apply rnd_plus; now apply val_format].
    apply (near_le 1 (S (1 + 3 * k)) 0 0) in N1; [|lia|lra]. unfold near in *. rewrite (Rabs_pos_eq (A * val r)) in Nm by lra. rewrite (Rabs_pos_eq c) in N1 by lra. rewrite (Rabs_pos_eq (c + val r * A)) by lra.
    set (g := (1 + u) ^ S (1 + 3 * k)) in *. change ((1 + u) ^ S (S (1 + 3 * k))) with ((1 + u) * g). assert (G := ge1 (S (1 + 3 * k))). fold g in G.
    assert (Hc := C c (or_introl eq_refl)). assert (EC : eta <= u * c) by (eapply Rle_trans; [exact EU|]; apply Rmult_le_compat_l; lra).
    replace (val (SFmul 53 1024 w r) + val (l_cst lb c) - (c + val r * A)) with ((val (SFmul 53 1024 w r) - A * val r) + (val (l_cst lb c) - c)) by ring.
    eapply Rle_trans; [apply Rabs_triang|].
    assert (X : u * c <= u * g * (c + val r * A)). { apply Rle_trans with (u * 1 * (c + val r * A)); [rewrite Rmult_1_r; apply Rmult_le_compat_l; lra|]. apply Rmult_le_compat_r; [lra|]. apply Rmult_le_compat_l; lra. }
    lra.
Qed.

(** Half-integer Matern: for all points and lengthscales, unless something overflows or a scale factor or
    a coefficient of the polynomial is subnormal, the computed value is within
    [2 ue + 2 (n + 12) (p + 2) u] of the exact one. *)
Theorem C75_matern : forall lb ue m p q (x y : farr),
  accurate lb ue -> (forall i, valid (x i)) -> (forall i, valid (y i)) -> mt_nu m = HalfInt p -> matern_prog m = Ok q ->
  (forall i, In i (all_indices (mt_shape m)) -> / 2 ^ 1022 <= Rabs (mt_scale m i)) ->
  (forall c, In c (mcoeffs p) -> / 2 ^ 1022 <= c) ->
  INR (size (mt_shape m)) <= 1048576 -> INR p <= 1000 ->
  all_fin lb x y q ->
  Rabs (val (run64 lb x y q) - matern_eval m (fun i => val (x i)) (fun i => val (y i)))
  <= 2 * ue + 2 * (INR (size (mt_shape m)) + 12) * (INR p + 2) * / 2 ^ 53.
Proof.
  intros lb ue m p q x y Acc Hx Hy Hp Hq Hn Hc Hsz Hpb F. change (/ 2 ^ 53) with u.
  unfold matern_prog in Hq. rewrite Hp in Hq. cbv iota zeta in Hq. apply ok_inj in Hq. subst q.
  destruct F as (Fm & Fh & Fe & Fo & Fr). apply all_fin_run in Fh.
  destruct Fr as [Frr Fs]. apply all_fin_run in Fs.
  destruct (sum_near lb ue x y (mt_scale m) Acc Hx Hy (all_indices (mt_shape m)) Hn) as [V N]. destruct (N Fs) as [Psh N']. clear N. rename N' into N. rewrite length_all in N.
  set (n := size (mt_shape m)) in *. set (sh := run64 lb x y (psq _ _)) in *. set (s := fold_right Rplus 0 _) in N.
  assert (Es : matern_eval m (fun i => val (x i)) (fun i => val (y i)) = f (c0 p) p (sqrt s)).
  { unfold matern_eval. rewrite Hp, profile_f. f_equal. unfold mt_dist, bnorm. f_equal. unfold bnorm_sq, bsum, rsum, s. f_equal. apply map_ext. intros i. unfold mt_diffs, vdiff. ring. }
  rewrite Es. clear Es.
  assert (Ps : 0 <= s). { unfold s. generalize (all_indices (mt_shape m)). intros l. induction l as [|j l IH]; cbn; [lra|]. assert (H := Rle_0_sqr ((val (x j) - val (y j)) * mt_scale m j)). unfold Rsqr in H. lra. }
  unfold near in N. rewrite (Rabs_pos_eq s Ps) in N. clearbody s.
  destruct (eps_small n Hsz) as [E0 E1]. destruct u_eta as (UE & N2 & U3). assert (U := u_lt). assert (Nt := eta_lt).
  assert (I := pos_INR n). assert (Ip := pos_INR p). assert (U2 : u * 9007199254740992 = 1) by (unfold u64; cbn; field).
  set (d := (1 + u) ^ (8 + n) - 1) in *. assert (D0 : 0 <= d) by (unfold d; assert (X := ge1 (8 + n)); lra).
  assert (D : (1 + u) ^ (9 + n) - 1 <= (INR n + 10) * u).
  { eapply Rle_trans; [apply pow_bound; rewrite plus_INR; cbn [INR]; lra|]. rewrite plus_INR. cbn [INR]. apply Rmult_le_compat_r; lra. }
  assert (D' : (1 + u) ^ (9 + n) - 1 = d + u * (1 + d)) by (unfold d; cbn [Nat.add pow]; ring). rewrite D' in D. clear D'.
  assert (D1 : (INR n + 10) * u <= / 2) by nra.
  assert (UD : 0 <= u * d) by (apply Rmult_le_pos; lra).
  (* the distance *)
  assert (SQ := sqrt_near d (eps_abs n) s (val sh) Ps Psh ltac:(lra) E0 N).
  assert (SE : sqrt (eps_abs n) <= u / 32). { rewrite <- (sqrt_square (u / 32)) by lra. apply sqrt_le_1_alt. lra. }
  set (r := SFsqrt 53 1024 sh) in *. assert (Vr : valid r) by (now apply valid_sqrt).
  destruct (sqrt_ok sh V Fs Psh) as [Fr Er]. fold r in Fr, Er.
  assert (Pr : 0 <= val r) by (rewrite Er; apply rnd_nonneg, sqrt_pos).
  assert (Q0 := sqrt_pos s). assert (Q1 := sqrt_pos (val sh)). assert (Qe := sqrt_pos (eps_abs n)).
  set (d' := d + u * (1 + d)) in *.
  assert (NR : Rabs (val r - sqrt s) <= d' * sqrt s + u / 2).
  { assert (R1 := rnd_error (sqrt (val sh))). rewrite <- Er in R1. rewrite (Rabs_pos_eq _ Q1) in R1.
    apply Rabs_le_inv in SQ. apply Rabs_le_inv in R1.
    assert (M : u * sqrt (val sh) <= u * ((1 + d) * sqrt s + u / 32)) by (apply Rmult_le_compat_l; lra).
    assert (M2 : u * (u / 32) <= u * / 1024) by (apply Rmult_le_compat_l; lra).
    unfold d'. apply Rabs_le. lra. }
  assert (D0' : 0 <= d') by (unfold d'; assert (0 <= u * (1 + d)) by (apply Rmult_le_pos; lra); lra).
  assert (FU := f_uniform (c0 p) p (c0_nonneg p) (Req_le _ _ (c0_head p)) (c0_step p) d' (u / 2) (sqrt s) (val r) Q0 Pr ltac:(lra) ltac:(lra) NR).
  (* the polynomial *)
  assert (L : @length R (mcoeffs p) = (p + 1)%nat) by exact (matern_length p 0).
  assert (NE : mcoeffs p <> []) by (intros K; rewrite K in L; cbn in L; lia).
  destruct (horner_near lb ue (mcoeffs p) r Acc NE Hc Vr Pr) as [Vh HN].
  unfold run64 in Fh. rewrite frun_horner in Fh by exact NE. change (frun 53 1024 lb x y (dist_prog (mt_shape m) (mt_scale m))) with r in Fh.
  set (h := fhorner (map (l_cst lb) (mcoeffs p)) r) in *. destruct (HN Fh) as (Ph & PA & NP). clear HN. rewrite poly_at_matern, L, Nat.add_sub in NP. rewrite poly_at_matern in PA.
  set (A := P (c0 p) p (val r)) in *. unfold near in NP. rewrite (Rabs_pos_eq A) in NP by lra. rewrite Rplus_0_r in NP.
  set (g := (1 + u) ^ (1 + 3 * p) - 1) in *. assert (G0 : 0 <= g) by (unfold g; assert (X := ge1 (1 + 3 * p)); lra).
  assert (G : g <= (3 * INR p + 2) * u).
  { unfold g. assert (EI : INR (1 + 3 * p) = 3 * INR p + 1) by (rewrite plus_INR, mult_INR; cbn [INR]; lra). eapply Rle_trans; [apply pow_bound; lra|]. rewrite EI. apply Rmult_le_compat_r; lra. }
  assert (G1 : g <= / 4096) by nra.
  (* the exponential *)
  destruct (proj1 (proj2 (proj2 Acc)) (SFopp r) (valid_opp _ Vr)) as [Ve C]. specialize (C Fo Fe). rewrite opp_val in C.
  set (e := l_exp lb (SFopp r)) in *. assert (X0 := exp_pos (- val r)). assert (U0 := proj1 Acc).
  (* the product *)
  assert (EV : run64 lb x y (PMul (horner_prog (mcoeffs p) (dist_prog (mt_shape m) (mt_scale m))) (PExp (PNeg (dist_prog (mt_shape m) (mt_scale m))))) = SFmul 53 1024 h e).
  { unfold run64. cbn [frun]. rewrite frun_horner by exact NE. reflexivity. }
  rewrite EV in *. rewrite (proj2 (mul_ok _ _ Vh Ve) Fm).
  assert (FA : f (c0 p) p (val r) = A * exp (- val r)) by reflexivity. assert (F1 := f_le1 (c0 p) p (Req_le _ _ (c0_head p)) (c0_step p) (val r) Pr).
  set (E := exp (- val r)) in *. set (fr := f (c0 p) p (val r)) in *. set (fs := f (c0 p) p (sqrt s)) in *.
  assert (BH : val h * eta <= 4 * u).
  { destruct (of_valid h Vh) as [w Ew]. assert (K := abs_B2R_lt_emax 53 1024 w). assert (VB : val h = B2R w) by (rewrite Ew; unfold val; apply SF2R_B2SF).
    rewrite <- VB, Rabs_pos_eq in K by exact Ph. replace (bpow radix2 1024) with (2 ^ 1024) in K by (rewrite (pow_IZR 2 1024); change (bpow radix2 1024) with (IZR (Z.pow_pos 2 1024)); apply f_equal; vm_compute; reflexivity).
    apply Rle_trans with (2 ^ 1024 * eta); [apply Rmult_le_compat_r; lra|]. unfold eta64, u64. replace 1075%nat with (1024 + 51)%nat by reflexivity. rewrite pow_add, Rinv_mult, <- Rmult_assoc, Rinv_r, Rmult_1_l by (apply pow_nonzero; lra).
    cbn. lra. }
  assert (AE : 0 <= A * E) by (apply Rmult_le_pos; lra).
  assert (HE : val h * E <= 1 + g).
  { apply Rabs_le_inv in NP. assert (M : val h * E <= (A + g * A) * E) by (apply Rmult_le_compat_r; lra). assert (M2 : g * (A * E) <= g * 1) by (apply Rmult_le_compat_l; lra). lra. }
  assert (PE : Rabs (val h * val e - fr) <= (1 + g) * ue + 4 * u + g).
  { rewrite FA. replace (val h * val e - A * E) with (val h * (val e - E) + (val h - A) * E) by ring. eapply Rle_trans; [apply Rabs_triang|]. rewrite !Rabs_mult, (Rabs_pos_eq (val h)), (Rabs_pos_eq E) by lra.
    assert (M1 : val h * Rabs (val e - E) <= val h * (ue * E + eta)) by (apply Rmult_le_compat_l; lra).
    assert (M2 : Rabs (val h - A) * E <= g * A * E) by (apply Rmult_le_compat_r; lra).
    assert (M3 : ue * (val h * E) <= ue * (1 + g)) by (apply Rmult_le_compat_l; lra).
    assert (M4 : g * (A * E) <= g * 1) by (apply Rmult_le_compat_l; lra). lra. }
  assert (RE := rnd_error (val h * val e)). set (v := rnd64 (val h * val e)) in *.
  assert (Fr0 : 0 <= fr) by lra.
  apply Rabs_le_inv in PE. set (W := (1 + g) * ue + 4 * u + g) in *.
  assert (BV : Rabs (val h * val e) <= 1 + W) by (apply Rabs_le; lra).
  assert (UV : u * Rabs (val h * val e) <= u * (1 + W)) by (apply Rmult_le_compat_l; lra).
  assert (UW : u * W <= / 1024 * W) by (apply Rmult_le_compat_r; unfold W; [assert (0 <= (1 + g) * ue) by (apply Rmult_le_pos; lra); lra|lra]).
  assert (GU : (1 + g) * ue <= (1 + / 4096) * ue) by (apply Rmult_le_compat_r; lra).
  rewrite S_INR in FU. apply Rabs_le_inv in FU. apply Rabs_le_inv in RE.
  assert (DD : 2 * d' * (INR p + 1 + 1) <= 2 * ((INR n + 10) * u) * (INR p + 1 + 1)) by (apply Rmult_le_compat_r; lra).
  assert (G2 : g <= (3 * INR p + 2) * u) by exact G.
  assert (pu : 0 <= INR p * u) by (apply Rmult_le_pos; lra).
  unfold W in *. apply Rabs_le. split; lra.
Qed.

(** Smoothness 3/2 and lengthscale 1 at the points 0 and 1: the hypotheses of [C75_matern] hold. *)
Lemma mcoeffs_1 : mcoeffs 1 = [1; 1].
Proof.
  assert (L : @length R (mcoeffs 1) = 2%nat) by exact (matern_length 1 0).
  assert (A : @nth R 0 (mcoeffs 1) 0 = 1) by (etransitivity; [exact (mc_0 1 0)|apply c0_head]).
  assert (B : @nth R 1 (mcoeffs 1) 0 = 1) by (etransitivity; [exact (mc_0 1 1)|unfold c0; cbn; lra]).
  destruct (mcoeffs 1) as [|a [|b [|c l]]]; cbn in L; try discriminate L. cbn in A, B. rewrite A, B. reflexivity.
Qed.
Definition m32 : matern := Matern [] (fun _ => 1) (HalfInt 1).
Lemma m32_scale : 1 <= mt_scale m32 [] /\ mt_scale m32 [] <= 2.
Proof.
  unfold mt_scale, m32. cbn [mt_nu mt_len nu_val]. change (INR 1) with 1. replace (2 * (1 + 1 / 2)) with 3 by lra. unfold Rdiv. rewrite Rinv_1, Rmult_1_r.
  split; [rewrite <- sqrt_1|rewrite <- (sqrt_square 2) by lra]; apply sqrt_le_1_alt; lra.
Qed.
Lemma sqrt_small a A : within a A -> 0 <= val a -> within (SFsqrt 53 1024 a) ((A + 1) * (1 + / 1024) + / 1024).
Proof.
  intros (V & F & H) P. destruct (sqrt_ok a V F P) as [F' E]. split; [now apply valid_sqrt|]. split; [exact F'|]. rewrite E. apply rnd_small.
  rewrite Rabs_pos_eq by apply sqrt_pos. rewrite Rabs_pos_eq in H by exact P. assert (S := sqrt_sqrt _ P). assert (S0 := sqrt_pos (val a)).
  destruct (Rle_dec (sqrt (val a)) 1) as [K|K]; [lra|]. nra.
Qed.
Example C75_ex_matern : forall q, matern_prog m32 = Ok q ->
  Rabs (val (run64 exact_lib pt0 pt1 q) - (1 + sqrt 3) * exp (- sqrt 3)) <= 82 * / 2 ^ 53.
Proof.
  intros q Hq. destruct fone_val as (V1 & F1 & E1).
  assert (T : 1024 <= 2 ^ 40) by (replace 1024 with (2 ^ 10) by ring; apply Rle_pow; [lra|lia]).
  assert (W0 : within (pt0 []) 1) by (split; [reflexivity|]; split; [reflexivity|]; change (Rabs 0 <= 1); rewrite Rabs_R0; lra).
  assert (W1 : within (pt1 []) 1) by (split; [exact V1|]; split; [exact F1|]; unfold pt1; rewrite E1, Rabs_R1; lra).
  destruct m32_scale as [S1 S2].
  assert (B := C75_matern exact_lib (2 * u) m32 1 q pt0 pt1 exact_lib_accurate (fun _ => proj1 W0) (fun _ => proj1 W1) eq_refl Hq).
  assert (T2 : / 2 ^ 1022 <= 1) by (rewrite <- Rinv_1; apply Rinv_le_contravar; [lra|apply pow_R1_Rle; lra]).
  assert (EV : matern_eval m32 (fun i => val (pt0 i)) (fun i => val (pt1 i)) = (1 + sqrt 3) * exp (- sqrt 3)).
  { assert (D : mt_dist m32 (fun i => val (pt0 i)) (fun i => val (pt1 i)) = sqrt 3).
    { unfold mt_dist, bnorm, bnorm_sq, bsum. f_equal. cbn [m32 mt_shape]. change (all_indices []) with [@nil nat]. cbn [map rsum fold_right]. unfold mt_diffs, vdiff. change (val (pt0 [])) with 0. unfold pt1. rewrite E1.
      unfold mt_scale, m32. cbn [mt_nu mt_len nu_val]. change (INR 1) with 1. replace (2 * (1 + 1 / 2)) with 3 by lra. assert (Sq : sqrt 3 * sqrt 3 = 3) by (apply sqrt_sqrt; lra).
      replace (((0 - 1) * (sqrt 3 / 1)) ^ 2 + 0) with (sqrt 3 * sqrt 3) by field. exact Sq. }
    unfold matern_eval. rewrite D. cbn [m32 mt_nu]. rewrite profile_f. unfold f. f_equal. rewrite <- poly_at_matern, mcoeffs_1. cbn. ring. }
  rewrite EV in B. eapply Rle_trans; [apply B|].
  - intros i Hi. change (all_indices (mt_shape m32)) with [@nil nat] in Hi. destruct Hi as [<-|[]]. rewrite Rabs_pos_eq; lra.
  - rewrite mcoeffs_1. intros c [<-|[<-|[]]]; exact T2.
  - cbn. lra.
  - cbn. lra.
  - unfold matern_prog in Hq. cbn [m32 mt_nu] in Hq. cbv iota zeta in Hq. apply ok_inj in Hq. subst q. rewrite mcoeffs_1.
    assert (B1 := sub_small _ _ _ _ W0 W1 ltac:(lra)).
    assert (B2 := to_small _ 2 ltac:(rewrite (Rabs_pos_eq (mt_scale m32 [])); lra) ltac:(lra)).
    assert (B3 := mul_small _ _ _ _ B1 B2 ltac:(lra)).
    assert (B4 := mul_small _ _ _ _ B3 B3 ltac:(lra)).
    assert (B0 := to_small 0 0 ltac:(rewrite Rabs_R0; lra) ltac:(lra)).
    assert (B5 := add_small _ _ _ _ B4 B0 ltac:(lra)).
    set (d := SFsub 53 1024 (pt0 []) (pt1 [])) in *. set (m := SFmul 53 1024 d (to_float (mt_scale m32 []))) in *.
    set (t := SFadd 53 1024 (SFmul 53 1024 m m) (to_float 0)) in *.
    assert (Pt : 0 <= val t).
    { unfold t. assert (Z : val (to_float 0) = 0). { destruct (to_float_ok 0) as (_ & E & _). rewrite (E (proj1 (proj2 B0))). unfold rnd64. apply round_0. typeclasses eauto. }
      rewrite (proj2 (add_ok _ _ (proj1 B4) (proj1 B0)) (proj1 (proj2 B5))), Z, Rplus_0_r. apply rnd_nonneg. rewrite (proj2 (mul_ok _ _ (proj1 B3) (proj1 B3)) (proj1 (proj2 B4))). apply rnd_nonneg. apply Rle_0_sqr. }
    assert (B6 := sqrt_small _ _ B5 Pt). set (r := SFsqrt 53 1024 t) in *.
    assert (Pr : 0 <= val r) by (unfold r; rewrite (proj2 (sqrt_ok t (proj1 B5) (proj1 (proj2 B5)) Pt)); apply rnd_nonneg, sqrt_pos).
    assert (C1 := to_small 1 1 ltac:(rewrite Rabs_R1; lra) ltac:(lra)).
    assert (B7 := mul_small _ _ _ _ C1 B6 ltac:(lra)).
    assert (B8 := add_small _ _ _ _ B7 C1 ltac:(lra)).
    assert (Fo : fin (SFopp r)) by (destruct B6 as (_ & F & _); destruct r; exact F).
    assert (B9 : within (to_float (exp (val (SFopp r)))) (1 * (1 + / 1024) + / 1024)).
    { apply to_small; [|lra]. rewrite Rabs_pos_eq by (left; apply exp_pos). rewrite opp_val. rewrite <- exp_0. destruct Pr as [Pr|Pr]; [left; apply exp_increasing; lra|rewrite <- Pr, Ropp_0; lra]. }
    assert (B10 := mul_small _ _ _ _ B8 B9 ltac:(lra)).
    destruct W0 as (_ & Fx & _), W1 as (_ & Fy & _), B1 as (_ & G1 & _), B2 as (_ & G2 & _), B3 as (_ & G3 & _), B4 as (_ & G4 & _), B0 as (_ & G0 & _), B5 as (_ & G5 & _), B6 as (_ & G6 & _), B7 as (_ & G7 & _), B8 as (_ & G8 & _), B9 as (_ & G9 & _), B10 as (_ & G10 & _), C1 as (_ & H1 & _).
    assert (AR : all_fin exact_lib pt0 pt1 (dist_prog (mt_shape m32) (mt_scale m32))).
    { exact (conj G6 (conj G5 (conj (conj G4 (conj G3 (conj (conj G1 (conj (conj Fx I) (conj Fy I))) (conj G2 I)))) (conj G0 I)))). }
    exact (conj G10 (conj (conj G8 (conj (conj G7 (conj (conj H1 I) AR)) (conj H1 I))) (conj G9 (conj Fo AR)))).
  - change (/ 2 ^ 53) with u. cbn. lra.
Qed.
Print Assumptions C75_matern.
