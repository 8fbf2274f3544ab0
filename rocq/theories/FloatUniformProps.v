(** C75: an error bound of covariance functions in double precision that is the same for all points. *)
From Coq Require Import List Reals Bool Arith ZArith Lia Lra Psatz.
From Coq.Floats Require Import SpecFloat.
From Flocq Require Import Core Relative Plus_error BinarySingleNaN.
From Verif Require Import Base NdArray PolyModel PolyClassModel FunExprModel DiffopModel DiffopProofs LfoModel KernelModel WendlandModel AdModel AdSpec AdKernels AdProps AdCovModel AdCovProofs FloatModel FloatProofs FloatProps FloatRoundSpec FloatRound FloatErr FloatRoundProps FloatRangeSpec FloatRangeProps.
Import ListNotations.
Open Scope R_scope.
#[local] Existing Instance FloatRound.Hprec.
#[local] Existing Instance FloatRound.Hmax.
Notation u := u64.
Notation eta := eta64.
(** Relative error [(1+u)^k - 1] and absolute error [e] *)
Definition near (k : nat) (e a b : R) : Prop := Rabs (a - b) <= ((1 + u) ^ k - 1) * Rabs b + e.

Lemma u_lt : 0 < u.
Proof. unfold u64. apply Rinv_0_lt_compat, pow_lt. lra. Qed.
Lemma eta_lt : 0 < eta.
Proof. unfold eta64. apply Rinv_0_lt_compat, pow_lt. lra. Qed.
Lemma ge1 k : 1 <= (1 + u) ^ k.
Proof. apply pow_R1_Rle. assert (H := u_lt). lra. Qed.
Lemma near_step k e a b c t : near k e a b -> Rabs (c - a) <= u * Rabs a + t -> near (S k) ((1 + u) * e + t) c b.
Proof.
  unfold near. intros H K. assert (U := u_lt). assert (G := ge1 k).
  assert (A : Rabs a <= Rabs (a - b) + Rabs b) by (replace a with ((a - b) + b) at 1 by ring; apply Rabs_triang).
  assert (B : Rabs (c - b) <= Rabs (c - a) + Rabs (a - b)) by (replace (c - b) with ((c - a) + (a - b)) by ring; apply Rabs_triang).
  cbn [pow]. assert (P := Rabs_pos b). nra.
Qed.
Lemma near_le j k d e a b : (j <= k)%nat -> d <= e -> near j d a b -> near k e a b.
Proof.
  unfold near. intros H D N. assert (L : (1 + u) ^ j <= (1 + u) ^ k) by (apply Rle_pow; [assert (U := u_lt); lra|exact H]).
  assert (P := Rabs_pos b). nra.
Qed.
Lemma near_mul j k a b A B : near j 0 a A -> near k 0 b B -> near (j + k) 0 (a * b) (A * B).
Proof.
  unfold near. intros H K. rewrite pow_add, Rabs_mult. assert (Gj := ge1 j). assert (Gk := ge1 k).
  set (p := (1 + u) ^ j) in *. set (q := (1 + u) ^ k) in *.
  assert (Hb : Rabs b <= q * Rabs B) by (replace b with ((b - B) + B) at 1 by ring; eapply Rle_trans; [apply Rabs_triang|lra]).
  assert (T : Rabs (a * b - A * B) <= Rabs (a - A) * Rabs b + Rabs A * Rabs (b - B)).
  { replace (a * b - A * B) with ((a - A) * b + A * (b - B)) by ring. eapply Rle_trans; [apply Rabs_triang|]. rewrite !Rabs_mult. lra. }
  assert (PA := Rabs_pos A). assert (PB := Rabs_pos B). assert (Pb := Rabs_pos b).
  assert (X : Rabs (a - A) * Rabs b <= (p - 1) * Rabs A * (q * Rabs B)) by (apply Rmult_le_compat; try apply Rabs_pos; lra).
  assert (Y : Rabs A * Rabs (b - B) <= Rabs A * ((q - 1) * Rabs B)) by (apply Rmult_le_compat_l; lra).
  nra.
Qed.
Lemma u_eta : 4 * eta <= u /\ eta <= / 1024 /\ u <= / 1024.
Proof.
  split; [|split; [apply eta_small|apply u_small]]. unfold eta64, u64.
  replace (2 ^ 1075) with (2 ^ 53 * 2 ^ 1022) by (rewrite <- pow_add; f_equal).
  rewrite Rinv_mult. assert (P : 0 < / 2 ^ 53) by (apply Rinv_0_lt_compat, pow_lt; lra).
  assert (Q : / 2 ^ 1022 <= / 4). { apply Rinv_le_contravar; [lra|]. replace 4 with (2 ^ 2) by ring. apply Rle_pow; [lra|lia]. }
  nra.
Qed.
(** The square of a number with an absolute error *)
Lemma near_sq m mh : near 3 eta mh m -> near 7 (2 * eta) (mh * mh) (m * m).
Proof.
  unfold near. intros H. destruct u_eta as (E1 & E2 & E3). assert (U := u_lt). assert (N := eta_lt).
  set (g := (1 + u) ^ 3 - 1) in *. assert (G : 0 <= g) by (unfold g; assert (X := ge1 3); lra). assert (G1 : g <= 1) by (unfold g; nra).
  assert (P6 : g * (2 + g) + u <= (1 + u) ^ 7 - 1).
  { assert (X := ge1 6). assert (X1 : (1 + u) ^ 7 = (1 + u) ^ 6 + u * (1 + u) ^ 6) by (unfold pow; ring).
    assert (X2 : g * (2 + g) = (1 + u) ^ 6 - 1) by (unfold g, pow; ring). rewrite X1, X2. clearbody g. nra. }
  rewrite Rabs_mult. set (M := Rabs m) in *. assert (PM : 0 <= M) by apply Rabs_pos. set (D := Rabs (mh - m)) in *. assert (PD : 0 <= D) by apply Rabs_pos.
  assert (T : Rabs (mh * mh - m * m) <= D * (2 * M + D)).
  { replace (mh * mh - m * m) with ((mh - m) * (2 * m + (mh - m))) by ring. rewrite Rabs_mult. apply Rmult_le_compat_l; [apply Rabs_pos|].
    eapply Rle_trans; [apply Rabs_triang|]. fold D. rewrite Rabs_mult, (Rabs_pos_eq 2) by lra. fold M. lra. }
  assert (T2 : D * (2 * M + D) <= (g * M + eta) * (2 * M + (g * M + eta))) by (apply Rmult_le_compat; nra).
  assert (Q : 2 * M <= 1 + M * M) by (assert (0 <= (M - 1) * (M - 1)) by apply Rle_0_sqr; lra).
  assert (C : 0 <= (1 + g) * eta) by (apply Rmult_le_pos; lra).
  assert (X1 : (1 + g) * eta * (2 * M) <= (1 + g) * eta * (1 + M * M)) by (apply Rmult_le_compat_l; lra).
  assert (F : (1 + g) * eta <= 3 / 2 * eta). { assert (g <= / 2) by (unfold g, pow; nra). apply Rmult_le_compat_r; lra. }
  assert (Y : eta * eta <= eta * / 2) by (apply Rmult_le_compat_l; lra).
  assert (MM : 0 <= M * M) by apply Rle_0_sqr.
  assert (Z : (1 + g) * eta * (M * M) <= u * (M * M)) by (apply Rmult_le_compat_r; lra).
  assert (W : (g * (2 + g) + u) * (M * M) <= ((1 + u) ^ 7 - 1) * (M * M)) by (apply Rmult_le_compat_r; lra).
  set (K := (1 + u) ^ 7 - 1) in *. clearbody g K.
  apply Rle_trans with ((g * M + eta) * (2 * M + (g * M + eta))); [lra|].
  replace ((g * M + eta) * (2 * M + (g * M + eta))) with (g * (2 + g) * (M * M) + (1 + g) * eta * (2 * M) + eta * eta) by ring. lra.
Qed.
(** ** Sums of squares of scaled differences *)
Lemma val_format a : valid a -> generic_format radix2 (FLT_exp (-1074) 53) (val a).
Proof. intros V. destruct (of_valid a V) as [x ->]. unfold val. rewrite SF2R_B2SF. apply (generic_format_B2R 53 1024). Qed.
Lemma rnd_plus a b : generic_format radix2 (FLT_exp (-1074) 53) a -> generic_format radix2 (FLT_exp (-1074) 53) b -> Rabs (rnd64 (a + b) - (a + b)) <= u * Rabs (a + b) + 0.
Proof.
  intros Fa Fb. destruct (FLT_plus_error_N_ex radix2 (-1074) 53 (fun x => negb (Z.even x)) a b Fa Fb) as (eps & He & E).
  unfold rnd64. rewrite E. replace ((a + b) * (1 + eps) - (a + b)) with (eps * (a + b)) by ring. rewrite Rabs_mult, Rplus_0_r.
  apply Rmult_le_compat_r; [apply Rabs_pos|]. eapply Rle_trans; [exact He|]. change (u_ro radix2 53) with (/ 2 * bpow radix2 (- (53) + 1)). rewrite u_val.
  assert (U := u_lt). apply Rmult_le_reg_r with (1 + u); [lra|]. unfold Rdiv. rewrite Rmult_assoc, Rinv_l, Rmult_1_r by lra. nra.
Qed.
Lemma near_refl b : near 0 0 b b.
Proof. unfold near. rewrite Rminus_diag_eq, Rabs_R0 by reflexivity. cbn. lra. Qed.
(** A factor that is not subnormal *)
Definition normal (c : R) : Prop := / 2 ^ 1022 <= Rabs c.
Lemma near_cst c : normal c -> near 1 0 (rnd64 c) c.
Proof.
  intros H. unfold near. assert (R := relative_error_N_FLT radix2 (-1074) 53 eq_refl (fun x => negb (Z.even x)) c). rewrite u_val in R.
  eapply Rle_trans; [apply R|lra]. eapply Rle_trans; [|exact H]. change (-1074 + 53 - 1)%Z with (- (1022))%Z. rewrite bpow_opp.
  change 1022%Z with (Z.of_nat 1022). rewrite bpow_powerRZ, <- pow_powerRZ. apply Rle_refl.
Qed.
Lemma rnd_nonneg a : 0 <= a -> 0 <= rnd64 a.
Proof. intros H. apply round_ge_generic; [apply FLT_exp_valid; reflexivity|apply valid_rnd_N|apply generic_format_0|exact H]. Qed.
Section Sum.
Variables (lb : lib) (ue : R) (x y : farr) (scale : array).
Hypothesis Acc : accurate lb ue.
Hypothesis Hx : forall i, valid (x i).
Hypothesis Hy : forall i, valid (y i).
Notation sq i := (((val (x i) - val (y i)) * scale i) * ((val (x i) - val (y i)) * scale i)).
Lemma term_near i : normal (scale i) -> fin (term lb scale x y i) -> near 8 (4 * eta) (val (term lb scale x y i)) (sq i).
Proof.
  intros Hn F. unfold term in *. set (d := SFsub 53 1024 (x i) (y i)) in *. set (c := l_cst lb (scale i)) in *.
  assert (Vd : valid d) by now apply valid_sub. destruct (proj1 (proj2 Acc) (scale i)) as [Vc Ec]. fold c in Vc, Ec.
  set (m := SFmul 53 1024 d c) in *. assert (Vm : valid m) by now apply valid_mul.
  destruct (mul_finite_args _ _ F) as [Fm _]. destruct (mul_finite_args _ _ Fm) as [Fd Fc].
  assert (N1 : near 1 0 (val d) (val (x i) - val (y i))).
  { rewrite (proj2 (sub_ok _ _ (Hx i) (Hy i)) Fd : val d = _). replace 0 with ((1 + u) * 0 + 0) by ring. eapply near_step; [apply near_refl|].
    apply rnd_plus; [now apply val_format|]. apply generic_format_opp. now apply val_format. }
  assert (N2 : near 1 0 (val c) (scale i)) by (rewrite (Ec Fc); now apply near_cst).
  assert (N3 : near 3 eta (val m) ((val (x i) - val (y i)) * scale i)).
  { rewrite (proj2 (mul_ok _ _ Vd Vc) Fm : val m = _). replace eta with ((1 + u) * 0 + eta) by ring. eapply near_step; [exact (near_mul _ _ _ _ _ _ N1 N2)|apply rnd_error]. }
  apply near_sq in N3. rewrite (proj2 (mul_ok _ _ Vm Vm) F). eapply near_le; [apply le_n| |eapply near_step; [exact N3|apply rnd_error]].
  destruct u_eta as (_ & _ & U). assert (N := eta_lt). nra.
Qed.
Lemma term_valid i : valid (term lb scale x y i).
Proof. unfold term. assert (V := proj1 (proj1 (proj2 Acc) (scale i))). repeat apply valid_mul; auto; now apply valid_sub. Qed.
Definition eps_abs (n : nat) : R := INR n * (4 * eta) * (1 + u) ^ n.
Definition psq (l : list index) : prog := psum (map (fun i => PPow (PMul (PSub (PVar false i) (PVar true i)) (PCst (scale i))) 2) l).
Lemma sum_near l : (forall i, In i l -> normal (scale i)) -> valid (run64 lb x y (psq l)) /\
  (fin (run64 lb x y (psq l)) -> 0 <= val (run64 lb x y (psq l)) /\ near (8 + length l) (eps_abs (length l)) (val (run64 lb x y (psq l))) (fold_right Rplus 0 (map (fun i => sq i) l))).
Proof.
  assert (U := u_lt). assert (N := eta_lt).
  induction l as [|i l IH]; intros Hn.
  - destruct (proj1 (proj2 Acc) 0) as [V E]. split; [exact V|]. intros F. change (run64 lb x y (psq [])) with (l_cst lb 0) in *. rewrite (E F).
    cbn [map fold_right length]. unfold rnd64. rewrite round_0 by apply valid_rnd_N. split; [lra|]. eapply near_le; [| |apply near_refl]; [lia|]. unfold eps_abs. cbn. lra.
  - destruct IH as [V IH]; [intros; apply Hn; now right|]. assert (Vt := term_valid i).
    change (run64 lb x y (psq (i :: l))) with (SFadd 53 1024 (term lb scale x y i) (run64 lb x y (psq l))).
    split; [now apply valid_add|]. intros F. destruct (add_finite_args _ _ F) as [Ft Fl]. destruct (IH Fl) as [Pl IH'].
    assert (Pt : 0 <= val (term lb scale x y i)).
    { unfold term in *. destruct (mul_finite_args _ _ Ft) as [Fm _]. rewrite (proj2 (mul_ok _ _ (valid_mul _ _ (valid_sub _ _ (Hx i) (Hy i)) (proj1 (proj1 (proj2 Acc) (scale i)))) (valid_mul _ _ (valid_sub _ _ (Hx i) (Hy i)) (proj1 (proj1 (proj2 Acc) (scale i))))) Ft). apply rnd_nonneg, Rle_0_sqr. }
    clear IH. rename IH' into IH.
    assert (T := term_near i (Hn i (or_introl eq_refl)) Ft). rewrite (proj2 (add_ok _ _ Vt V) F). split; [apply rnd_nonneg; lra|].
    cbn [map fold_right length]. set (A := sq i) in *. set (B := fold_right Rplus 0 _) in *. set (a := val (term _ _ _ _ i)) in *. set (b := val _) in *.
    assert (PA : 0 <= A) by apply Rle_0_sqr.
    assert (PB : 0 <= B). { unfold B. clear. induction l as [|j l IH]; cbn; [lra|]. assert (H := Rle_0_sqr ((val (x j) - val (y j)) * scale j)). unfold Rsqr in H. lra. }
    assert (S1 : near (8 + length l) (4 * eta + eps_abs (length l)) (a + b) (A + B)).
    { apply (near_le 8 (8 + length l) _ (4 * eta)) in T; [|lia|lra]. unfold near in *. rewrite (Rabs_pos_eq A PA) in T. rewrite (Rabs_pos_eq B PB) in IH. rewrite (Rabs_pos_eq (A + B)) by lra.
      replace (a + b - (A + B)) with ((a - A) + (b - B)) by ring. eapply Rle_trans; [apply Rabs_triang|]. lra. }
    replace (8 + S (length l))%nat with (S (8 + length l)) by lia.
    eapply near_le; [apply le_n| |eapply near_step; [exact S1|apply rnd_plus; apply val_format; auto]].
    unfold eps_abs. rewrite S_INR. cbn [pow]. assert (G := ge1 (length l)). assert (I := pos_INR (length l)). set (g := (1 + u) ^ length l) in *.
    assert (P : 0 <= (1 + u) * (4 * eta) * (g - 1)) by (apply Rmult_le_pos; [apply Rmult_le_pos|]; lra). lra.
Qed.
End Sum.

(** ** The exponential function of a number with a relative error *)
Lemma exp_ge x : 1 + x <= exp x.
Proof. apply exp_ineq1_le. Qed.
Lemma exp_uniform d e s t : 0 <= s -> 0 <= d <= / 2 -> 0 <= e <= / 4 -> Rabs (t - s) <= d * s + e ->
  Rabs (exp (- t) - exp (- s)) <= (d + e) * (1 + 2 * e).
Proof.
  intros Hs Hd He H. set (q := s * (1 - d) - e).
  assert (M : forall a b, q <= a -> a <= b -> exp (- a) - exp (- b) <= (b - a) * exp (- q)).
  { intros a b Ha Hb. replace (- b) with (- a + - (b - a)) by ring. rewrite exp_plus. assert (X := exp_ge (- (b - a))).
    assert (Y : exp (- a) <= exp (- q)) by (destruct Ha as [Ha| ->]; [left; apply exp_increasing; lra|apply Rle_refl]).
    assert (P := exp_pos (- a)). nra. }
  apply Rabs_le_inv in H. assert (sd : 0 <= d * s) by (apply Rmult_le_pos; lra). assert (Q1 : q <= s) by (unfold q; lra). assert (Q2 : q <= t) by (unfold q; lra).
  assert (B : Rabs (exp (- t) - exp (- s)) <= (d * s + e) * exp (- q)).
  { assert (P := exp_pos (- q)). destruct (Rle_dec s t) as [L|L].
    - assert (X := M s t Q1 L). rewrite Rabs_left1; [nra|]. destruct L as [L| ->]; [|lra]. assert (exp (- t) < exp (- s)) by (apply exp_increasing; lra). lra.
    - assert (X := M t s Q2 ltac:(lra)). rewrite Rabs_pos_eq; [nra|]. assert (exp (- s) < exp (- t)) by (apply exp_increasing; lra). lra. }
  eapply Rle_trans; [exact B|]. set (w := s * (1 - d)). replace (- q) with (- w + e) by (unfold q, w; ring). rewrite exp_plus.
  assert (E : exp e <= 1 + 2 * e).
  { assert (X := exp_ge (- e)). rewrite exp_Ropp in X. assert (P := exp_pos e). assert (Y := Rmult_le_compat_r (exp e) _ _ (Rlt_le _ _ P) X). rewrite Rinv_l in Y by lra.
    apply Rmult_le_reg_l with (1 - e); [lra|]. assert (0 <= e * (1 - 2 * e)) by (apply Rmult_le_pos; lra). lra. }
  assert (W : s * exp (- w) <= 1).
  { assert (X := exp_ge (w - 1)). assert (X1 := exp_ge 1). replace w with ((w - 1) + 1) by ring. rewrite exp_Ropp, exp_plus.
    assert (P1 := exp_pos (w - 1)). assert (w0 : s / 2 <= w) by (unfold w; nra). apply Rmult_le_reg_r with (exp (w - 1) * exp 1); [nra|].
    rewrite Rmult_assoc, Rinv_l by nra. nra. }
  assert (W1 : exp (- w) <= 1). { rewrite <- exp_0. assert (0 <= w) by (unfold w; nra). destruct (Req_dec w 0) as [-> |]; [rewrite Ropp_0; lra|]. left. apply exp_increasing. lra. }
  assert (P := exp_pos (- w)). assert (P' := exp_pos e). rewrite <- Rmult_assoc.
  apply Rmult_le_compat; [apply Rmult_le_pos; nra|lra| |exact E]. nra.
Qed.
(** Bounds of the constants, for fewer than two million coordinates *)
Lemma pow_bound k : INR k <= 2097152 -> (1 + u) ^ k - 1 <= (INR k + 1) * u.
Proof.
  intros H. assert (U := u_lt).
  assert (G : (1 + u) ^ k * (1 - INR k * u) <= 1).
  { clear H. induction k as [|k IH]; [cbn; lra|]. rewrite S_INR. cbn [pow]. assert (I := pos_INR k). assert (P := ge1 k).
    replace ((1 + u) * (1 + u) ^ k * (1 - (INR k + 1) * u)) with ((1 + u) ^ k * (1 - INR k * u) - (1 + u) ^ k * ((INR k + 1) * (u * u))) by ring.
    assert (0 <= (1 + u) ^ k * ((INR k + 1) * (u * u))) by (apply Rmult_le_pos; [lra|apply Rmult_le_pos; [lra|apply Rle_0_sqr]]). lra. }
  assert (I := pos_INR k). assert (K := H). assert (U2 : u * 9007199254740992 = 1) by (unfold u64; cbn; field).
  set (k' := INR k) in *. set (g := (1 + u) ^ k) in *.
  assert (KU : k' * u <= / 1024) by nra.
  assert (S : k' * (k' + 1) * u <= 1) by (assert (k' * (k' + 1) <= 2097152 * 2097153) by nra; nra).
  assert (S' : 0 <= u * (1 - k' * (k' + 1) * u)) by (apply Rmult_le_pos; lra).
  assert (L : g * (1 - k' * u) <= (1 + (k' + 1) * u) * (1 - k' * u)) by lra. apply Rmult_le_reg_r in L; lra.
Qed.
Lemma eps_small n : INR n <= 1048576 -> 0 <= eps_abs n /\ eps_abs n <= u * u / 1024.
Proof.
  intros H. assert (U := u_lt). assert (N := eta_lt). assert (G := pow_bound n ltac:(lra)).
  assert (I := pos_INR n). assert (K := H).
  assert (G1 := ge1 n). assert (U2 : u * 9007199254740992 = 1) by (unfold u64; cbn; field).
  assert (G2 : (1 + u) ^ n <= 2) by nra. unfold eps_abs. split; [repeat apply Rmult_le_pos; lra|].
  assert (E : eta * 2 ^ 1075 = 1) by (unfold eta64; apply Rinv_l, pow_nonzero; lra).
  assert (E1 : eta * 8388608 <= u * u / 1024).
  { unfold eta64, u64. apply Rmult_le_reg_r with (2 ^ 1075); [apply pow_lt; lra|]. rewrite Rmult_comm, <- Rmult_assoc, Rinv_r, Rmult_1_l by (apply pow_nonzero; lra).
    replace (2 ^ 1075) with (2 ^ 53 * 2 ^ 53 * (1024 * 8388608) * 2 ^ 936).
    - assert (1 <= 2 ^ 936) by (apply pow_R1_Rle; lra). assert (P : 2 ^ 53 <> 0) by (apply pow_nonzero; lra).
      replace (/ 2 ^ 53 * / 2 ^ 53 / 1024 * (2 ^ 53 * 2 ^ 53 * (1024 * 8388608) * 2 ^ 936)) with (8388608 * 2 ^ 936) by (field; exact P). lra.
    - replace (1024 * 8388608) with (2 ^ 33) by (cbn; lra). rewrite <- !pow_add. f_equal. }
  eapply Rle_trans; [|exact E1]. replace (INR n * (4 * eta) * (1 + u) ^ n) with (eta * (4 * (INR n * (1 + u) ^ n))) by ring. apply Rmult_le_compat_l; [lra|]. nra.
Qed.

(** ** Covariance functions *)
(** Squared exponential: for all points and lengthscales, unless something overflows or a scale factor
    is subnormal, the computed value is within [ue + (n + 10) u] of the exact one. *)
Theorem C75_expquad : forall lb ue e (x y : farr),
  accurate lb ue -> (forall i, valid (x i)) -> (forall i, valid (y i)) ->
  (forall i, In i (all_indices (eq_shape e)) -> / 2 ^ 1022 <= Rabs (eq_scale e i)) -> INR (size (eq_shape e)) <= 1048576 ->
  all_fin lb x y (expquad_prog e) ->
  Rabs (val (run64 lb x y (expquad_prog e)) - expquad_eval e (fun i => val (x i)) (fun i => val (y i)))
  <= ue + (INR (size (eq_shape e)) + 10) * / 2 ^ 53.
Proof.
  intros lb ue e x y Acc Hx Hy Hn Hsz F. change (/ 2 ^ 53) with u.
  destruct F as (Fe & Fo & Fs). cbn [all_fin] in Fs. apply all_fin_run in Fs.
  destruct (sum_near lb ue x y (eq_scale e) Acc Hx Hy (all_indices (eq_shape e)) Hn) as [V N]. destruct (N Fs) as [Psh N']. clear N. rename N' into N. rewrite length_all in N.
  set (n := size (eq_shape e)) in *. set (sh := run64 lb x y (psq _ _)) in *. set (s := fold_right Rplus 0 _) in N.
  assert (Es : expquad_eval e (fun i => val (x i)) (fun i => val (y i)) = exp (- s)).
  { unfold expquad_eval. do 2 f_equal. unfold bnorm_sq, bsum, rsum, s. f_equal. apply map_ext. intros i. unfold vdiff. ring. }
  rewrite Es.
  assert (Ps : 0 <= s). { unfold s. generalize (all_indices (eq_shape e)). intros l. induction l as [|j l IH]; cbn; [lra|]. assert (H := Rle_0_sqr ((val (x j) - val (y j)) * eq_scale e j)). unfold Rsqr in H. lra. }
  unfold near in N. rewrite (Rabs_pos_eq s Ps) in N. set (d := (1 + u) ^ (8 + n) - 1) in *. set (ep := eps_abs n) in *.
  destruct (eps_small n Hsz) as [E0 E1]. fold ep in E0, E1. destruct u_eta as (_ & N2 & U3). assert (U := u_lt). assert (Nt := eta_lt).
  assert (D : d <= (INR n + 9) * u).
  { unfold d. eapply Rle_trans; [apply pow_bound; rewrite plus_INR; cbn [INR]; lra|]. rewrite plus_INR. cbn [INR]. apply Rmult_le_compat_r; lra. }
  assert (D0 : 0 <= d) by (unfold d; assert (X := ge1 (8 + n)); lra).
  assert (I := pos_INR n). assert (U2 : u * 9007199254740992 = 1) by (unfold u64; cbn; field).
  assert (D1 : d <= / 2) by nra. assert (E2 : ep <= u / 1024) by nra.
  assert (B := exp_uniform d ep s (val sh) Ps (conj D0 D1) ltac:(lra) N).
  assert (Vo := valid_opp _ V). destruct (proj1 (proj2 (proj2 Acc)) (SFopp sh) Vo) as [_ C].
  assert (Fo' : fin (SFopp sh)) by exact Fo. specialize (C Fo' Fe). rewrite opp_val in C.
  change (val (run64 lb x y (expquad_prog e))) with (val (l_exp lb (SFopp sh))).
  assert (X1 : exp (- val sh) <= 1). { rewrite <- exp_0. destruct Psh as [Psh|Psh]; [left; apply exp_increasing; fold sh in Psh; lra|]. fold sh in Psh. rewrite <- Psh, Ropp_0. lra. }
  assert (X0 := exp_pos (- val sh)). assert (U0 := proj1 Acc).
  replace (val (l_exp lb (SFopp sh)) - exp (- s)) with ((val (l_exp lb (SFopp sh)) - exp (- val sh)) + (exp (- val sh) - exp (- s))) by ring.
  eapply Rle_trans; [apply Rabs_triang|].
  assert (Y : ue * exp (- val sh) <= ue) by nra. assert (Z : (d + ep) * (1 + 2 * ep) <= d + 4 * ep) by nra.
  assert (W : 4 * ep + eta <= u) by (destruct u_eta as (W & _); lra). lra.
Qed.

(** Lengthscale 1, points 0 and 1, a library whose exponential is within two roundoffs: the computed value
    is within 13 roundoffs of [exp(-1/2)]. *)
Example C75_ex_expquad : Rabs (val (run64 exact_lib pt0 pt1 (expquad_prog (ExpQuad [] (fun _ => 1)))) - exp (- / 2)) <= 13 * / 2 ^ 53.
Proof.
  destruct fone_val as (V1 & F1 & E1).
  assert (W0 : within (pt0 []) 1) by (split; [reflexivity|]; split; [reflexivity|]; change (Rabs 0 <= 1); rewrite Rabs_R0; lra).
  assert (W1 : within (pt1 []) 1) by (split; [exact V1|]; split; [exact F1|]; unfold pt1; rewrite E1, Rabs_R1; lra).
  assert (S2 : 1 <= sqrt 2) by (rewrite <- sqrt_1; apply sqrt_le_1_alt; lra).
  assert (Sq : sqrt 2 * sqrt 2 = 2) by (apply sqrt_sqrt; lra).
  assert (B := C75_expquad exact_lib (2 * u) (ExpQuad [] (fun _ => 1)) pt0 pt1 exact_lib_accurate (fun _ => proj1 W0) (fun _ => proj1 W1)).
  eapply Rle_trans; [|eapply Rle_trans; [apply B|]].
  - right. assert (G : forall v w, expquad_eval (ExpQuad [] (fun _ => 1)) (fun _ => v) (fun _ => w) = exp (- ((v - w) ^ 2 * / 2))).
    { intros v w. unfold expquad_eval, bnorm_sq, bsum. cbn. unfold vdiff, eq_scale. cbn [eq_len]. do 2 f_equal. replace (/ 2) with (/ (sqrt 2 * sqrt 2)) by now rewrite Sq. field. lra. }
    assert (G' : expquad_eval (ExpQuad [] (fun _ => 1)) (fun i => val (pt0 i)) (fun i => val (pt1 i)) = exp (- / 2)).
    { etransitivity; [exact (G 0 (val (fone 53 1024)))|]. rewrite E1. f_equal. lra. }
    rewrite G'. reflexivity.
  - intros i _. unfold eq_scale. cbn [eq_len]. rewrite Rabs_pos_eq by (left; apply Rdiv_lt_0_compat; lra). rewrite Rmult_1_r.
    apply Rle_trans with (/ 2). { apply Rinv_le_contravar; [lra|]. rewrite <- (pow_1 2) at 1. apply Rle_pow; [lra|lia]. }
    unfold Rdiv. rewrite Rmult_1_l. apply Rinv_le_contravar; [lra|]. nra.
  - cbn. lra.
  - exact (C73_ex_finite 1 pt0 pt1 ltac:(lra) W0 W1).
  - cbn [eq_shape size fold_right INR]. change (/ 2 ^ 53) with u. cbn. lra.
Qed.
Print Assumptions C75_expquad.
