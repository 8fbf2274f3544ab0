(** C77: intervals and their uniform grids in double precision. *)
From Coq Require Import List Reals Bool Arith ZArith Lia Lra Psatz.
From Coq.Floats Require Import SpecFloat.
From Flocq Require Import Core Relative Plus_error BinarySingleNaN.
From Verif Require Import Base FloatModel FloatProofs FloatRoundSpec FloatRound FloatErr FloatRoundProps FloatUniformProps FloatGridModel.
Import ListNotations.
Open Scope R_scope.
#[local] Existing Instance FloatRound.Hprec.
#[local] Existing Instance FloatRound.Hmax.
Notation u := u64.
Notation eta := eta64.

(** ** Comparisons, conversions *)
Lemma ok_inj A (a b : A) : Ok a = Ok b -> a = b.
Proof. congruence. Qed.
Lemma leb_val a b : valid a -> valid b -> fin a -> fin b -> SFleb a b = Rle_bool (val a) (val b).
Proof.
  intros Va Vb Fa Fb. destruct (of_valid a Va) as [x ->], (of_valid b Vb) as [y ->]. unfold fin, val in *. rewrite is_finite_SF_B2SF in *. rewrite !SF2R_B2SF.
  change (SFleb (B2SF x) (B2SF y)) with (Bleb x y). now apply Bleb_correct.
Qed.
Lemma ltb_val a b : valid a -> valid b -> fin a -> fin b -> SFltb a b = Rlt_bool (val a) (val b).
Proof.
  intros Va Vb Fa Fb. destruct (of_valid a Va) as [x ->], (of_valid b Vb) as [y ->]. unfold fin, val in *. rewrite is_finite_SF_B2SF in *. rewrite !SF2R_B2SF.
  change (SFltb (B2SF x) (B2SF y)) with (Bltb x y). now apply Bltb_correct.
Qed.
Lemma eqb_zero a : fin a -> SFeqb a (S754_zero false) = true <-> val a = 0.
Proof.
  destruct a as [[]|[]| |[] m e]; unfold fin, val; cbn; try discriminate; try tauto; intros _; (split; [discriminate|]); intros H; exfalso.
  - assert (X := F2R_lt_0 radix2 {| Fnum := Z.neg m; Fexp := e |} ltac:(cbn; lia)). lra.
  - assert (X := F2R_gt_0 radix2 {| Fnum := Z.pos m; Fexp := e |} ltac:(cbn; lia)). lra.
Qed.
Lemma rnd_mono a b : a <= b -> rnd64 a <= rnd64 b.
Proof. intros H. apply round_le; [apply FLT_exp_valid; reflexivity|apply valid_rnd_N|exact H]. Qed.
Lemma rnd_id a : valid a -> rnd64 (val a) = val a.
Proof. intros V. apply round_generic; [apply valid_rnd_N|now apply val_format]. Qed.
Lemma val_lt a : valid a -> Rabs (val a) < 2 ^ 1024.
Proof.
  intros V. destruct (of_valid a V) as [w ->]. unfold val. rewrite SF2R_B2SF, <- bpow_emax. apply abs_B2R_lt_emax.
Qed.
(** A real number between two floats rounds to a number between them. *)
Lemma rnd_between a b r : valid a -> valid b -> val a <= r <= val b -> val a <= rnd64 r <= val b /\ no_overflow r.
Proof.
  intros Va Vb [H1 H2]. apply rnd_mono in H1, H2. rewrite (rnd_id a Va) in H1. rewrite (rnd_id b Vb) in H2. split; [lra|].
  unfold no_overflow. assert (A := val_lt a Va). assert (B := val_lt b Vb). apply Rabs_def2 in A, B. apply Rabs_def1; lra.
Qed.
Lemma of_nat_ok k : INR k <= 2 ^ 53 -> valid (of_nat k) /\ fin (of_nat k) /\ val (of_nat k) = INR k.
Proof.
  intros H. unfold of_nat. rewrite binary_normalize_equiv. split; [apply valid_b|].
  assert (C := binary_normalize_correct 53 1024 FloatRound.Hprec FloatRound.Hmax mode_NE (Z.of_nat k) 0 false). cbv zeta in C.
  assert (E : F2R (Float radix2 (Z.of_nat k) 0) = INR k) by (unfold F2R; cbn [Fnum Fexp]; change (bpow radix2 0) with 1; rewrite INR_IZR_INZ; ring). rewrite E in C.
  assert (G : generic_format radix2 (SpecFloat.fexp 53 1024) (INR k)).
  { change (SpecFloat.fexp 53 1024) with (FLT_exp (-1074) 53). destruct H as [H|H].
    - apply generic_format_FLT. exists (Float radix2 (Z.of_nat k) 0); [now symmetry| |cbn; lia].
      cbn [Fnum]. rewrite Z.abs_eq by lia. apply lt_IZR. rewrite <- INR_IZR_INZ. eapply Rlt_le_trans; [exact H|]. right. rewrite (pow_IZR 2 53). reflexivity.
    - rewrite H. replace (2 ^ 53) with (bpow radix2 53) by (rewrite bpow_powerRZ; change 53%Z with (Z.of_nat 53); now rewrite <- pow_powerRZ).
      apply generic_format_bpow. vm_compute. discriminate. }
  rewrite round_generic in C by (try apply valid_rnd_round_mode; exact G).
  unfold fin, val. rewrite is_finite_SF_B2SF, SF2R_B2SF.
  destruct (Rlt_bool_spec (Rabs (INR k)) (bpow radix2 1024)) as [L|L]; [tauto|]. exfalso. rewrite bpow_emax, Rabs_pos_eq in L by apply pos_INR.
  assert (X : 2 ^ 53 < 2 ^ 1024) by (apply Rlt_pow; [lra|lia]). lra.
Qed.

(** ** The points of a grid *)
Section Points.
Variables (a b : spec_float) (m : nat).
Hypothesis Va : valid a.
Hypothesis Vb : valid b.
Hypothesis Fa : fin a.
Hypothesis Fb : fin b.
Hypothesis Hab : val a <= val b.
Hypothesis Fd : fin (fsub b a).
Hypothesis M1 : (1 <= m)%nat.
Hypothesis M2 : INR m <= 2 ^ 50.
Notation D := (val b - val a).
Notation delta := (fsub b a).
Notation step := (fdiv delta (of_nat m)).
Hypothesis W : val step = 0 \/ INR m * / 2 ^ 1022 <= D.
Definition fy (k : nat) : spec_float := if SFeqb step (S754_zero false) then fmul (fdiv (of_nat k) (of_nat m)) delta else fmul (of_nat k) step.
Lemma v0 : valid (S754_zero false) /\ val (S754_zero false) = 0.
Proof. split; reflexivity. Qed.
Lemma Mr : 1 <= INR m.
Proof. change 1 with (INR 1). now apply le_INR. Qed.
Lemma count k : (k <= m)%nat -> valid (of_nat k) /\ fin (of_nat k) /\ val (of_nat k) = INR k.
Proof. intros H. apply of_nat_ok. apply le_INR in H. assert (2 ^ 50 <= 2 ^ 53) by (apply Rle_pow; [lra|lia]). lra. Qed.
Lemma delta_ok : valid delta /\ val delta = rnd64 D /\ 0 <= val delta /\ Rabs (val delta - D) <= u * D.
Proof.
  assert (V := valid_sub b a Vb Va). assert (E := proj2 (sub_ok b a Vb Va) Fd). split; [exact V|]. split; [exact E|]. rewrite E. split; [apply rnd_nonneg; lra|].
  assert (R := rnd_plus (val b) (- val a) (val_format b Vb) (generic_format_opp _ _ _ (val_format a Va))). rewrite Rplus_0_r in R. rewrite (Rabs_pos_eq (val b + - val a)) in R by lra. exact R.
Qed.
Lemma step_ok : valid step /\ fin step /\ val step = rnd64 (val delta / INR m) /\ 0 <= val step.
Proof.
  destruct delta_ok as (V & E & P & _). destruct (count m (le_n _)) as (Vm & Fm & Em). assert (M := Mr).
  assert (Q : 0 <= val delta / INR m <= val delta).
  { assert (I0 : 0 < / INR m) by (apply Rinv_0_lt_compat; lra). assert (I1 : / INR m <= 1) by (rewrite <- Rinv_1; apply Rinv_le_contravar; lra). unfold Rdiv. split; [apply Rmult_le_pos; lra|]. nra. }
  destruct (rnd_between (S754_zero false) delta _ (proj1 v0) V Q) as [B NO]. destruct (div_ok delta (of_nat m) V Vm Fd ltac:(rewrite Em; lra)) as [C1 C2]. rewrite Em in *.
  split; [now apply valid_div|]. assert (F : fin step) by now apply C1. split; [exact F|]. rewrite (C2 F). split; [reflexivity|]. apply rnd_nonneg. lra.
Qed.
Lemma points : exists w : nat -> R, (forall j k, (j <= k < m)%nat -> w j <= w k) /\ w 0%nat = 0 /\
  forall k, (k < m)%nat -> valid (fadd (fy k) a) /\ fin (fadd (fy k) a) /\ val (fadd (fy k) a) = rnd64 (w k + val a) /\ 0 <= w k <= D /\ Rabs (w k - INR k * (D / INR m)) <= 6 * u * D + eta /\ generic_format radix2 (FLT_exp (-1074) 53) (w k).
Proof.
  destruct delta_ok as (Vd & Ed & Pd & Dd). destruct step_ok as (Vs & Fs & Es & Ps). assert (M := Mr). assert (U := u_lt). assert (N := eta_lt).
  assert (last : forall k w, valid (fy k) -> fin (fy k) -> val (fy k) = w -> 0 <= w <= D -> valid (fadd (fy k) a) /\ fin (fadd (fy k) a) /\ val (fadd (fy k) a) = rnd64 (w + val a)).
  { intros k w V F E H. split; [now apply valid_add|]. assert (F' : fin (fadd (fy k) a)).
    { apply (add_ok (fy k) a V Va). split; [exact F|]. split; [exact Fa|]. rewrite E. apply (rnd_between a b); try assumption. lra. }
    split; [exact F'|]. rewrite (proj2 (add_ok (fy k) a V Va) F'), E. reflexivity. }
  destruct (Req_dec (val step) 0) as [S0|Z].
  - assert (UM : 2 ^ 50 * eta <= / 2 ^ 1025). { right. unfold eta64. replace 1075%nat with (50 + 1025)%nat by reflexivity. rewrite (pow_add 2 50 1025), Rinv_mult, <- Rmult_assoc, Rinv_r, Rmult_1_l by (apply pow_nonzero; lra). reflexivity. }
    destruct u_eta as (_ & _ & U3).
    assert (DE : val delta <= 2 * / 2 ^ 1025).
    { assert (R := rnd_error (val delta / INR m)). rewrite <- Es, S0 in R. assert (Q : 0 <= val delta / INR m) by (apply Rmult_le_pos; [exact Pd|left; apply Rinv_0_lt_compat; lra]).
      rewrite Rminus_0_l, Rabs_Ropp, (Rabs_pos_eq _ Q) in R. assert (X : val delta / INR m <= 2 * eta) by nra.
      apply Rle_trans with (INR m * (2 * eta)). { replace (val delta) with (INR m * (val delta / INR m)) by (field; lra). apply Rmult_le_compat_l; lra. }
      apply Rle_trans with (2 ^ 50 * (2 * eta)); [apply Rmult_le_compat_r; lra|lra]. }
    assert (EX : val delta = D).
    { rewrite Ed. apply round_generic; [apply valid_rnd_N|]. apply (FLT_format_plus_small radix2 (-1074) 53 (val b) (- val a)); [now apply val_format|now apply generic_format_opp, val_format|].
      change (val b + - val a) with D. rewrite Rabs_pos_eq by lra. apply Rabs_le_inv in Dd. apply Rle_trans with (4 * / 2 ^ 1025); [nra|].
      change (53 + -1074)%Z with (- (1021))%Z. rewrite bpow_opp. change 1021%Z with (Z.of_nat 1021). rewrite bpow_powerRZ, <- pow_powerRZ. change (IZR radix2) with 2.
      replace (2 ^ 1025) with (2 ^ 1021 * 16) by (replace 16 with (2 ^ 4) by ring; rewrite <- pow_add; reflexivity). rewrite Rinv_mult. assert (0 < / 2 ^ 1021) by (apply Rinv_0_lt_compat, pow_lt; lra). lra. }
    exists (fun k => rnd64 (rnd64 (INR k / INR m) * val delta)).
    assert (Iv : 0 < / INR m) by (apply Rinv_0_lt_compat; lra). assert (Z : rnd64 0 = 0) by (unfold rnd64; apply round_0; apply valid_rnd_N).
    split. { intros j k Hjk. apply rnd_mono, Rmult_le_compat_r; [exact Pd|]. apply rnd_mono. apply Rmult_le_compat_r; [lra|]. apply le_INR. lia. }
    split. { change (INR 0) with 0. unfold Rdiv. now rewrite Rmult_0_l, Z, Rmult_0_l. }
    intros k Hk.
    assert (Y : fy k = fmul (fdiv (of_nat k) (of_nat m)) delta). { unfold fy. apply (eqb_zero step Fs) in S0. now rewrite S0. }
    destruct (count k ltac:(lia)) as (Vk & Fk & Ek). destruct (count m (le_n _)) as (Vm & Fm & Em). destruct fone_val as (V1 & F1 & E1).
    assert (Q : 0 <= INR k / INR m <= 1).
    { assert (I := pos_INR k). assert (Ik : INR k <= INR m) by (apply le_INR; lia). unfold Rdiv. split; [apply Rmult_le_pos; lra|]. apply Rmult_le_reg_r with (INR m); [lra|]. rewrite Rmult_assoc, Rinv_l by lra. lra. }
    destruct (rnd_between (S754_zero false) (fone 53 1024) (INR k / INR m) (proj1 v0) V1 ltac:(rewrite E1; exact Q)) as [Bq NO]. rewrite E1, (proj2 v0) in Bq.
    destruct (div_ok (of_nat k) (of_nat m) Vk Vm Fk ltac:(rewrite Em; lra)) as [C1 C2]. rewrite Ek, Em in C1, C2.
    assert (Fq : fin (fdiv (of_nat k) (of_nat m))) by now apply C1. assert (Vq := valid_div _ _ Vk Vm). specialize (C2 Fq). set (q := rnd64 (INR k / INR m)) in *.
    assert (Bp : 0 <= q * val delta <= val delta) by nra.
    destruct (rnd_between (S754_zero false) delta (q * val delta) (proj1 v0) Vd ltac:(rewrite (proj2 v0); exact Bp)) as [Bw NO2]. rewrite (proj2 v0) in Bw.
    assert (Fy : fin (fy k)). { rewrite Y. apply (mul_ok _ _ Vq Vd). rewrite C2. auto. }
    assert (Ey : val (fy k) = rnd64 (q * val delta)). { rewrite Y in *. rewrite (proj2 (mul_ok _ _ Vq Vd) Fy), C2. reflexivity. }
    assert (Vy : valid (fy k)) by (rewrite Y; now apply valid_mul).
    destruct (last k _ Vy Fy Ey ltac:(lra)) as (L1 & L2 & L3). split; [exact L1|]. split; [exact L2|]. split; [exact L3|]. split; [lra|].
    split; [|apply generic_format_round; [apply FLT_exp_valid; reflexivity|apply valid_rnd_N]].
    assert (R1 := rnd_error (INR k / INR m)). fold q in R1. rewrite (Rabs_pos_eq (INR k / INR m)) in R1 by lra. assert (R2 := rnd_error (q * val delta)). rewrite (Rabs_pos_eq (q * val delta)) in R2 by lra.
    rewrite EX in *. set (x := rnd64 (q * D)) in *. replace (INR k * (D / INR m)) with (INR k / INR m * D) by (field; lra). apply Rabs_le_inv in R1. apply Rabs_le_inv in R2. destruct u_eta as (UE & _).
    assert (T1 : u * (INR k / INR m) + eta <= 2 * u) by nra. assert (T2 : (q - INR k / INR m) * D <= 2 * u * D) by (apply Rmult_le_compat_r; lra). assert (T3 : - (2 * u) * D <= (q - INR k / INR m) * D) by (apply Rmult_le_compat_r; lra).
    assert (T4 : u * (q * D) <= u * D) by (apply Rmult_le_compat_l; lra). assert (0 <= u * D) by (apply Rmult_le_pos; lra). apply Rabs_le. lra.
  - destruct W as [K|K]; [contradiction|]. assert (PD : 0 < D) by (eapply Rlt_le_trans; [|exact K]; apply Rmult_lt_0_compat; [lra|apply Rinv_0_lt_compat, pow_lt; lra]). set (A := D / INR m).
    assert (PA : 0 < A) by (apply Rdiv_lt_0_compat; lra). assert (DA : INR m * A = D) by (unfold A; field; lra).
    assert (T : / 2 ^ 1022 <= A) by (apply Rmult_le_reg_l with (INR m); [lra|]; rewrite DA; exact K).
    assert (EU : eta <= u * A). { apply Rle_trans with (u * / 2 ^ 1022); [|apply Rmult_le_compat_l; lra]. unfold eta64, u64. rewrite <- Rinv_mult, <- pow_add. apply Rle_refl. }
    destruct u_eta as (_ & _ & U3). assert (UM : INR m * u <= / 8). { apply Rle_trans with (2 ^ 50 * u); [apply Rmult_le_compat_r; lra|]. right. unfold u64. replace (2 ^ 53) with (2 ^ 50 * 8) by (cbn; lra). field. }
    assert (SE : Rabs (val step - A) <= 4 * u * A).
    { assert (R := rnd_error (val delta / INR m)). rewrite <- Es in R. apply Rabs_le_inv in Dd. apply Rabs_le_inv in R.
      assert (Iv : 0 < / INR m) by (apply Rinv_0_lt_compat; lra).
      assert (Q1 : val delta / INR m <= (1 + u) * A). { unfold A, Rdiv. rewrite <- Rmult_assoc. apply Rmult_le_compat_r; lra. }
      assert (Q2 : (1 - u) * A <= val delta / INR m). { unfold A, Rdiv. rewrite <- Rmult_assoc. apply Rmult_le_compat_r; lra. }
      assert (uA : 0 < u * A) by (apply Rmult_lt_0_compat; lra).
      rewrite (Rabs_pos_eq (val delta / INR m)) in R by nra. assert (Q3 : u * (val delta / INR m) <= u * ((1 + u) * A)) by (apply Rmult_le_compat_l; lra).
      assert (uuA : u * (u * A) <= / 1024 * (u * A)) by (apply Rmult_le_compat_r; lra). apply Rabs_le. lra. }
    assert (S0 : SFeqb step (S754_zero false) = false).
    { destruct (SFeqb step _) eqn:E; [|reflexivity]. apply (eqb_zero step Fs) in E. rewrite E in SE. apply Rabs_le_inv in SE. nra. }
    set (st := val step) in *. set (w := fun k => rnd64 (INR k * st)).
    assert (B : forall k, (k < m)%nat -> 0 <= w k <= D /\ Rabs (w k - INR k * A) <= 6 * u * D + eta).
    { intros k Hk. assert (I := pos_INR k). assert (Hk' : INR k + 1 <= INR m) by (rewrite <- S_INR; apply le_INR; lia).
      assert (R := rnd_error (INR k * st)). change (rnd64 (INR k * st)) with (w k) in R. rewrite (Rabs_pos_eq (INR k * st)) in R by (apply Rmult_le_pos; lra).
      apply Rabs_le_inv in SE. apply Rabs_le_inv in R.
      assert (kA : 0 <= INR k * A) by (apply Rmult_le_pos; lra).
      assert (K1 : INR k * st <= INR k * (A + 4 * u * A)) by (apply Rmult_le_compat_l; lra).
      assert (K2 : INR k * (A - 4 * u * A) <= INR k * st) by (apply Rmult_le_compat_l; lra).
      assert (K3 : u * (INR k * st) <= u * (INR k * (A + 4 * u * A))) by (apply Rmult_le_compat_l; lra).
      assert (K4 : u * (u * (INR k * A)) <= / 1024 * (u * (INR k * A))) by (apply Rmult_le_compat_r; [apply Rmult_le_pos|]; lra).
      assert (K5 : u * (INR k * A) <= u * (D - A)). { apply Rmult_le_compat_l; [lra|]. rewrite <- DA. assert ((INR k + 1) * A <= INR m * A) by (apply Rmult_le_compat_r; lra). lra. }
      assert (E6 : Rabs (w k - INR k * A) <= 6 * u * D) by (apply Rabs_le; lra).
      split; [|lra]. split; [apply rnd_nonneg, Rmult_le_pos; lra|].
      assert (K6 : INR k * A <= D - A). { rewrite <- DA. assert ((INR k + 1) * A <= INR m * A) by (apply Rmult_le_compat_r; lra). lra. }
      assert (K7 : 6 * u * D <= A). { rewrite <- DA. replace (6 * u * (INR m * A)) with (6 * (INR m * u) * A) by ring. nra. }
      apply Rabs_le_inv in E6. lra. }
    exists w. split; [intros j k Hjk; apply rnd_mono, Rmult_le_compat_r; [exact Ps|]; apply le_INR; lia|].
    split; [unfold w, INR; rewrite Rmult_0_l; unfold rnd64; apply round_0; apply valid_rnd_N|].
    intros k Hk. destruct (B k Hk) as [B1 B2]. destruct (count k ltac:(lia)) as (Vk & Fk & Ek).
    assert (Y : fy k = fmul (of_nat k) step) by (unfold fy; now rewrite S0).
    assert (NO : no_overflow (INR k * st)).
    { unfold no_overflow. fold (w k). rewrite Rabs_pos_eq by lra. apply Rle_lt_trans with (val delta); [|assert (X := val_lt delta Vd); apply Rabs_def2 in X; lra].
      rewrite Ed. assert (X : rnd64 (w k) = w k) by (apply round_generic; [apply valid_rnd_N|]; apply generic_format_round; [apply FLT_exp_valid; reflexivity|apply valid_rnd_N]).
      rewrite <- X. apply rnd_mono. lra. }
    assert (Fy : fin (fy k)) by (rewrite Y; apply (mul_ok _ _ Vk Vs); rewrite Ek; auto).
    assert (Ey : val (fy k) = w k) by (rewrite Y in *; rewrite (proj2 (mul_ok _ _ Vk Vs) Fy), Ek; reflexivity).
    assert (Vy : valid (fy k)) by (rewrite Y; now apply valid_mul).
    destruct (last k (w k) Vy Fy Ey B1) as (L1 & L2 & L3). repeat (split; [assumption|]). apply generic_format_round; [apply FLT_exp_valid; reflexivity|apply valid_rnd_N].
Qed.
End Points.

(** ** Intervals *)
(** Finite bounds are accepted exactly if they are in order. *)
Theorem C77_interval : forall l r, valid l -> valid r -> fin l -> fin r ->
  mk_finterval l r = if Rle_dec (val l) (val r) then Ok (FInterval l r) else Err ValueError.
Proof.
  intros l r Vl Vr Fl Fr. unfold mk_finterval. rewrite (ltb_val r l Vr Vl Fr Fl). destruct (Rlt_bool_spec (val r) (val l)), (Rle_dec (val l) (val r)); try reflexivity; lra.
Qed.
(** Violated: NaN is accepted as a bound; such an interval contains nothing, not even its other bound. *)
Theorem C77_nan_refuted : forall b, mk_finterval S754_nan b = Ok (FInterval S754_nan b) /\ mk_finterval b S754_nan = Ok (FInterval b S754_nan) /\
  forall x, fcontains (FInterval S754_nan b) x = false /\ fcontains (FInterval b S754_nan) x = false.
Proof.
  intros b. assert (N : forall y, SFltb S754_nan y = false /\ SFltb y S754_nan = false /\ SFleb S754_nan y = false /\ SFleb y S754_nan = false) by (intros y; repeat split; destruct y as [[]|[]| |[] m e]; reflexivity).
  unfold mk_finterval. rewrite (proj1 (N b)), (proj1 (proj2 (N b))). repeat split; unfold fcontains; cbn [fi_lower fi_upper].
  rewrite (proj2 (proj2 (proj2 (N x)))). apply andb_false_r.
Qed.
(** Membership is exact; infinities and NaN are in no interval with finite bounds. *)
Theorem C77_contains : forall l r x, valid l -> valid r -> valid x -> fin l -> fin r ->
  (fcontains (FInterval l r) x = true <-> fin x /\ val l <= val x <= val r).
Proof.
  intros l r x Vl Vr Vx Fl Fr. unfold fcontains. cbn [fi_lower fi_upper]. destruct (is_finite_SF x) eqn:Fx.
  - rewrite (leb_val l x Vl Vx Fl Fx), (leb_val x r Vx Vr Fx Fr), andb_true_iff. destruct (Rle_bool_spec (val l) (val x)), (Rle_bool_spec (val x) (val r)); split; intros H1; try (destruct H1; discriminate); try (split; [exact Fx|lra]); try tauto; lra.
  - split; [|intros [F _]; unfold fin in F; congruence]. rewrite andb_true_iff. intros [A B]. exfalso.
    destruct x as [|[]| |]; try discriminate Fx; destruct l as [[]|[]| |[] ? ?]; try discriminate A; try discriminate Fl; destruct r as [[]|[]| |[] ? ?]; try discriminate B; try discriminate Fr.
Qed.
(** The volume is not negative, 0 only if the bounds are equal, and within one rounding of the width: also for
    bounds that are close to each other. *)
Theorem C77_volume : forall l r, valid l -> valid r -> val l <= val r -> let v := fvolume (FInterval l r) in fin v ->
  0 <= val v /\ (val v = 0 <-> val l = val r) /\ Rabs (val v - (val r - val l)) <= / 2 ^ 53 * (val r - val l).
Proof.
  intros l r Vl Vr H v F. destruct (delta_ok l r Vl Vr H F) as (_ & E & P & B). change (fsub r l) with v in *. split; [exact P|]. split; [|exact B]. split.
  - intros Z. rewrite Z, Rminus_0_l, Rabs_Ropp, Rabs_pos_eq in B by lra. destruct u_eta as (_ & _ & U3). nra.
  - intros Q. rewrite E, Q, Rminus_diag_eq by reflexivity. unfold rnd64. apply round_0. apply valid_rnd_N.
Qed.

(** ** Uniform grids *)
Theorem C77_shape : forall d shp inset, length shp <> 1%nat -> fgrid d shp inset = Err AssertionError.
Proof. intros d [|n [|m shp]] inset H; cbn in *; congruence. Qed.
(** A grid of [n] points of an interval whose width does not overflow, with an inset between 0 and half the width:
    the points are in the interval and in order, from lower bound plus inset to upper bound minus inset (for at least
    two points), and each is close to the exact one.  The number of points is at most [2^50]; the computed spacing is 0 (also by
    underflow) or not subnormal. *)
Theorem C77_grid : forall l r inset n g, valid l -> valid r -> valid inset -> fin l -> fin r -> fin inset ->
  val l <= val r -> 0 <= val inset -> 2 * val inset <= val r - val l -> fin (fvolume (FInterval l r)) ->
  let a := SFadd 53 1024 l inset in let b := SFsub 53 1024 r inset in let D := val b - val a in
  INR n <= 2 ^ 50 -> ((2 <= n)%nat -> val (SFdiv 53 1024 (SFsub 53 1024 b a) (of_nat (n - 1))) = 0 \/ INR n * / 2 ^ 1022 <= D) -> fgrid (FInterval l r) [n] inset = Ok g ->
  length g = n /\
  (forall x, In x g -> fcontains (FInterval l r) x = true) /\
  (forall i j, (i <= j < n)%nat -> SFleb (nth i g S754_nan) (nth j g S754_nan) = true) /\
  ((1 <= n)%nat -> val (nth 0 g S754_nan) = val a) /\ ((2 <= n)%nat -> nth (n - 1) g S754_nan = b) /\
  (forall k, (2 <= n)%nat -> (k < n)%nat -> Rabs (val (nth k g S754_nan) - (val a + INR k * (D / INR (n - 1)))) <= (6 * D + Rmax (Rabs (val a)) (Rabs (val b))) * / 2 ^ 53 + / 2 ^ 1075).
Proof.
  intros l r inset n g Vl Vr Vi Fl Fr Fi Hlr Hi Hi2 Fv a b D Hn HD Hg. change (/ 2 ^ 53) with u. change (/ 2 ^ 1075) with eta.
  assert (U := u_lt). assert (N := eta_lt).
  (* the ends *)
  destruct (rnd_between l r (val l + val inset) Vl Vr ltac:(lra)) as [Ba Na]. destruct (rnd_between l r (val r - val inset) Vl Vr ltac:(lra)) as [Bb Nb].
  assert (Va : valid a) by now apply valid_add. assert (Vb : valid b) by now apply valid_sub.
  assert (Fa : fin a) by (apply (add_ok l inset Vl Vi); auto). assert (Fb : fin b) by (apply (sub_ok r inset Vr Vi); auto).
  assert (Ea : val a = rnd64 (val l + val inset)) by (apply (add_ok l inset Vl Vi); exact Fa). assert (Eb : val b = rnd64 (val r - val inset)) by (apply (sub_ok r inset Vr Vi); exact Fb).
  rewrite <- Ea in Ba. rewrite <- Eb in Bb.
  assert (Hab : val a <= val b) by (rewrite Ea, Eb; apply rnd_mono; lra).
  assert (Fd : fin (SFsub 53 1024 b a)).
  { apply (sub_ok b a Vb Va). split; [exact Fb|]. split; [exact Fa|]. unfold no_overflow. assert (NO := proj2 (proj2 (proj1 (proj1 (sub_ok r l Vr Vl)) Fv))). unfold no_overflow in NO.
    apply Rabs_def2 in NO. assert (rnd64 (val b - val a) <= rnd64 (val r - val l)) by (apply rnd_mono; lra). rewrite Rabs_pos_eq by (apply rnd_nonneg; lra). lra. }
  assert (CI : forall x, valid x -> fin x -> val a <= val x <= val b -> fcontains (FInterval l r) x = true) by (intros x Vx Fx Hx; apply C77_contains; auto; split; [exact Fx|lra]).
  cbn [fgrid fi_lower fi_upper] in Hg. injection Hg as Hg. change (flinspace a b n = g) in Hg.
  destruct n as [|[|m]].
  - subst g. cbn. repeat split; intros; try lia; try contradiction.
  - cbn [flinspace] in Hg. destruct (of_nat_ok 0 ltac:(cbn [INR]; apply pow_le; lra)) as (V0 & F0 & E0). change (INR 0) with 0 in E0.
    assert (Vd := valid_sub b a Vb Va). assert (Z : rnd64 0 = 0) by (unfold rnd64; apply round_0; apply valid_rnd_N).
    assert (Fm : fin (fmul (of_nat 0) (fsub b a))). { apply (mul_ok _ _ V0 Vd). split; [exact F0|]. split; [exact Fd|]. unfold no_overflow. rewrite E0, Rmult_0_l, Z, Rabs_R0. apply pow_lt. lra. }
    assert (Em : val (fmul (of_nat 0) (fsub b a)) = 0). { rewrite (proj2 (mul_ok _ _ V0 Vd) Fm), E0, Rmult_0_l. exact Z. }
    assert (Vm := valid_mul _ _ V0 Vd).
    assert (Fx : fin (fadd (fmul (of_nat 0) (fsub b a)) a)). { apply (add_ok _ _ Vm Va). split; [exact Fm|]. split; [exact Fa|]. rewrite Em, Rplus_0_l. unfold no_overflow. rewrite (rnd_id a Va). now apply val_lt. }
    assert (Ex : val (fadd (fmul (of_nat 0) (fsub b a)) a) = val a). { rewrite (proj2 (add_ok _ _ Vm Va) Fx), Em, Rplus_0_l. now apply rnd_id. }
    assert (Vx := valid_add _ _ Vm Va). set (x := fadd _ a) in *. subst g. cbn [length nth]. split; [reflexivity|]. split; [|split; [|split; [|split]]]; try (intros; lia).
    + intros y [<-|[]]. apply CI; try assumption. lra.
    + intros i j Hij. assert (i = 0%nat) by lia. assert (j = 0%nat) by lia. subst. cbn [nth]. rewrite (leb_val x x Vx Vx Fx Fx). apply Rle_bool_true. lra.
    + intros _. exact Ex.
  - set (p := S m) in *. assert (P1 : (1 <= p)%nat) by (unfold p; lia). assert (Pn : INR p + 1 = INR (S p)) by (rewrite S_INR; reflexivity). assert (Ip := pos_INR p).
    change (S p - 1)%nat with (p - 0)%nat in HD. rewrite Nat.sub_0_r in HD. specialize (HD ltac:(unfold p; lia)).
    assert (HD' : val (fdiv (fsub b a) (of_nat p)) = 0 \/ INR p * / 2 ^ 1022 <= val b - val a).
    { destruct HD as [H|H]; [now left|right]. fold D. eapply Rle_trans; [|exact H]. apply Rmult_le_compat_r; [left; apply Rinv_0_lt_compat, pow_lt; lra|lra]. }
    destruct (points a b p Va Vb Fa Hab Fd P1 ltac:(lra) HD') as (w & Mono & W0 & Pts). fold D in Pts.
    assert (Eg : g = map (fun k => fadd (fy a b p k) a) (seq 0 p) ++ [b]) by (rewrite <- Hg; unfold fy, flinspace; reflexivity). clear Hg.
    set (pt := fun k => fadd (fy a b p k) a) in *.
    assert (Ng : forall k, (k < p)%nat -> nth k g S754_nan = pt k).
    { intros k Hk. rewrite Eg, app_nth1 by (rewrite map_length, seq_length; exact Hk). rewrite (nth_indep _ _ (pt 0%nat)) by (rewrite map_length, seq_length; exact Hk). rewrite map_nth, seq_nth by exact Hk. reflexivity. }
    assert (Nl : nth p g S754_nan = b) by (rewrite Eg, app_nth2; rewrite map_length, seq_length; [rewrite Nat.sub_diag; reflexivity|lia]).
    assert (Pp : forall k, (k < p)%nat -> val a <= val (pt k) <= val b).
    { intros k Hk. destruct (Pts k Hk) as (_ & _ & E & B & _). unfold pt. rewrite E. apply (rnd_between a b); auto. unfold D in B. lra. }
    split; [rewrite Eg, app_length, map_length, seq_length; cbn; lia|]. split; [|split; [|split; [|split]]].
    + intros x Hx. rewrite Eg in Hx. apply in_app_or in Hx as [Hx|[<-|[]]]; [|apply CI; auto; lra]. apply in_map_iff in Hx as (k & <- & Hk). apply in_seq in Hk. destruct (Pts k ltac:(lia)) as (V & F & _). apply CI; auto. apply Pp. lia.
    + intros i j Hij. destruct (Nat.eq_dec j p) as [-> |J].
      * rewrite Nl. destruct (Nat.eq_dec i p) as [-> |I]; [rewrite Nl, (leb_val b b Vb Vb Fb Fb); apply Rle_bool_true; lra|].
        rewrite (Ng i) by lia. destruct (Pts i ltac:(lia)) as (V & F & _). unfold pt. rewrite leb_val by assumption. apply Rle_bool_true. apply Pp. lia.
      * rewrite (Ng i), (Ng j) by lia. destruct (Pts i ltac:(lia)) as (V & F & E & _), (Pts j ltac:(lia)) as (V' & F' & E' & _). unfold pt. rewrite leb_val by assumption. apply Rle_bool_true. rewrite E, E'. apply rnd_mono.
        assert (w i <= w j) by (apply Mono; lia). lra.
    + intros _. rewrite Ng by lia. destruct (Pts 0%nat ltac:(lia)) as (_ & _ & E & _). unfold pt. rewrite E, W0, Rplus_0_l. now apply rnd_id.
    + intros _. change (S p - 1)%nat with (p - 0)%nat. rewrite Nat.sub_0_r. exact Nl.
    + intros k _ Hk. change (S p - 1)%nat with (p - 0)%nat. rewrite Nat.sub_0_r. assert (DP : 0 <= D) by (unfold D; lra).
      assert (Mx : 0 <= Rmax (Rabs (val a)) (Rabs (val b))) by (eapply Rle_trans; [apply Rabs_pos|apply Rmax_l]).
      assert (IP : 1 <= INR p) by (change 1 with (INR 1); now apply le_INR).
      destruct (Nat.eq_dec k p) as [-> |K].
      * rewrite Nl. replace (val b - (val a + INR p * (D / INR p))) with 0 by (unfold D; field; lra). rewrite Rabs_R0. assert (0 <= (6 * D + Rmax (Rabs (val a)) (Rabs (val b))) * u) by (apply Rmult_le_pos; lra). lra.
      * rewrite Ng by lia. destruct (Pts k ltac:(lia)) as (_ & _ & E & B & Ac & GF). unfold pt. rewrite E.
        assert (Fw' : Rabs (rnd64 (w k + val a) - (w k + val a)) <= u * Rabs (w k + val a)).
        { rewrite <- (Rplus_0_r (u * _)). apply rnd_plus; [exact GF|now apply val_format]. }
        assert (Q : Rabs (w k + val a) <= Rmax (Rabs (val a)) (Rabs (val b))).
        { unfold D in B. apply Rabs_le. assert (X1 := Rmax_l (Rabs (val a)) (Rabs (val b))). assert (X2 := Rmax_r (Rabs (val a)) (Rabs (val b))). assert (Y1 := Rle_abs (val b)). assert (Y2 := Rle_abs (- val a)). rewrite Rabs_Ropp in Y2. lra. }
        replace (rnd64 (w k + val a) - (val a + INR k * (D / INR p))) with ((rnd64 (w k + val a) - (w k + val a)) + (w k - INR k * (D / INR p))) by ring.
        eapply Rle_trans; [apply Rabs_triang|]. assert (u * Rabs (w k + val a) <= u * Rmax (Rabs (val a)) (Rabs (val b))) by (apply Rmult_le_compat_l; lra). lra.
Qed.
(** The points differ if the spacing is more than twice the bound of the error. *)
Theorem C77_distinct : forall l r inset n g, valid l -> valid r -> valid inset -> fin l -> fin r -> fin inset ->
  val l <= val r -> 0 <= val inset -> 2 * val inset <= val r - val l -> fin (fvolume (FInterval l r)) ->
  let a := SFadd 53 1024 l inset in let b := SFsub 53 1024 r inset in let D := val b - val a in
  (2 <= n)%nat -> INR n <= 2 ^ 50 -> INR n * / 2 ^ 1022 <= D -> fgrid (FInterval l r) [n] inset = Ok g ->
  2 * ((6 * D + Rmax (Rabs (val a)) (Rabs (val b))) * / 2 ^ 53 + / 2 ^ 1075) < D / INR (n - 1) ->
  forall i j, (i < j < n)%nat -> val (nth i g S754_nan) < val (nth j g S754_nan).
Proof.
  intros l r inset n g Vl Vr Vi Fl Fr Fi Hlr Hi Hi2 Fv a b D N2 Hn HD Hg HS i j Hij.
  destruct (C77_grid l r inset n g Vl Vr Vi Fl Fr Fi Hlr Hi Hi2 Fv Hn (fun _ => or_intror HD) Hg) as (_ & _ & _ & _ & _ & Acc). fold a b D in Acc.
  assert (A := Acc i N2 ltac:(lia)). assert (B := Acc j N2 ltac:(lia)). set (E := (6 * D + _) * / 2 ^ 53 + / 2 ^ 1075) in *. apply Rabs_le_inv in A, B.
  assert (I : INR i + 1 <= INR j) by (rewrite <- S_INR; apply le_INR; lia). assert (P : 0 <= D / INR (n - 1)).
  { apply Rle_trans with (2 * E); [|lra]. unfold E. assert (0 <= D). { eapply Rle_trans; [|exact HD]. apply Rmult_le_pos; [apply pos_INR|left; apply Rinv_0_lt_compat, pow_lt; lra]. }
    assert (0 <= Rmax (Rabs (val a)) (Rabs (val b))) by (eapply Rle_trans; [apply Rabs_pos|apply Rmax_l]). assert (0 < / 2 ^ 53) by (apply Rinv_0_lt_compat, pow_lt; lra). assert (0 < / 2 ^ 1075) by (apply Rinv_0_lt_compat, pow_lt; lra). apply Rmult_le_pos; [lra|]. apply Rplus_le_le_0_compat; [|lra]. apply Rmult_le_pos; lra. }
  assert (Q : (INR i + 1) * (D / INR (n - 1)) <= INR j * (D / INR (n - 1))) by (apply Rmult_le_compat_r; lra). lra.
Qed.

(** Violated for intervals so small that the spacing is subnormal: eleven points of the interval from 0 to
    [15 * 2^-1074]; the tenth is [18 * 2^-1074], outside the interval and larger than the last one. *)
Theorem C77_tiny_refuted : let d := FInterval (S754_zero false) (S754_finite false 15 (-1074)) in
  mk_finterval (fi_lower d) (fi_upper d) = Ok d /\
  exists g, fgrid d [11%nat] (S754_zero false) = Ok g /\ fcontains d (nth 9 g S754_nan) = false /\ SFleb (nth 9 g S754_nan) (nth 10 g S754_nan) = false.
Proof. split; [vm_compute; reflexivity|]. eexists. split; [vm_compute; reflexivity|]. split; vm_compute; reflexivity. Qed.
(** Violated for intervals whose width overflows: the interval of all finite numbers has infinite volume, and the first
    of any number of grid points is NaN. *)
Definition fmax : spec_float := S754_finite false 9007199254740991 971.
Theorem C77_wide_refuted : let d := FInterval (SFopp fmax) fmax in
  mk_finterval (fi_lower d) (fi_upper d) = Ok d /\ fvolume d = S754_infinity false /\
  forall n g, (1 <= n)%nat -> INR n <= 2 ^ 50 -> fgrid d [n] (S754_zero false) = Ok g -> nth 0 g (S754_zero false) = S754_nan.
Proof.
  intros d. split; [vm_compute; reflexivity|]. split; [vm_compute; reflexivity|]. intros n g Hn L Hg.
  change (Ok (flinspace (fadd (SFopp fmax) (S754_zero false)) (fsub fmax (S754_zero false)) n) = Ok g) in Hg. apply ok_inj in Hg. assert (Ea : fadd (SFopp fmax) (S754_zero false) = SFopp fmax) by (vm_compute; reflexivity). assert (Eb : fsub fmax (S754_zero false) = fmax) by (vm_compute; reflexivity).
  rewrite Ea, Eb in Hg. destruct n as [|[|m]]; [lia| |].
  - assert (E : flinspace (SFopp fmax) fmax 1 = [S754_nan]) by (vm_compute; reflexivity). rewrite E in Hg. subst g. reflexivity.
  - assert (ED : fsub fmax (SFopp fmax) = S754_infinity false) by (vm_compute; reflexivity).
    assert (H0 : of_nat 0 = S754_zero false) by reflexivity.
    assert (ES : fdiv (S754_infinity false) (of_nat (S m)) = S754_infinity false).
    { assert (P : INR (S m) <= 2 ^ 53). { assert (2 ^ 50 <= 2 ^ 53) by (apply Rle_pow; [lra|lia]). rewrite (S_INR (S m)) in L. lra. }
      destruct (of_nat_ok (S m) P) as (_ & F & V). assert (Pos : 0 < INR (S m)) by (apply lt_0_INR; lia). destruct (of_nat (S m)) as [s|s| |s q e]; try discriminate F; unfold val in V; cbn [SF2R] in V; [lra|].
      destruct s; [|reflexivity]. exfalso. assert (X := F2R_lt_0 radix2 (Float radix2 (Z.neg q) e) ltac:(cbn; lia)). change (F2R (Float radix2 (Z.neg q) e) = INR (S m)) in V. lra. }
    subst g. unfold flinspace. rewrite ED, ES. cbn [seq map app nth]. rewrite H0. reflexivity.
Qed.

(** Three points of the unit interval: the hypotheses of [C77_grid] hold. *)
Example C77_ex : let d := FInterval (S754_zero false) (SFone 53 1024) in
  mk_finterval (fi_lower d) (fi_upper d) = Ok d /\ fin (fvolume d) /\
  fgrid d [3%nat] (S754_zero false) = Ok [S754_zero false; S754_finite false 4503599627370496 (-53); SFone 53 1024] /\
  fsub (fi_upper d) (S754_zero false) = SFone 53 1024 /\ fadd (fi_lower d) (S754_zero false) = S754_zero false /\ 3 * / 2 ^ 1022 <= 1 - 0.
Proof.
  repeat (split; [vm_compute; reflexivity|]). apply Rmult_le_reg_r with (2 ^ 1022); [apply pow_lt; lra|]. rewrite Rmult_assoc, Rinv_l by (apply pow_nonzero; lra).
  replace (2 ^ 1022) with (2 ^ 1020 * 4) by (replace 4 with (2 ^ 2) by ring; rewrite <- pow_add; reflexivity). assert (1 <= 2 ^ 1020) by (apply pow_R1_Rle; lra). lra.
Qed.
Print Assumptions C77_grid.
(** Five points of the interval from 0 to [2^-1074], where the spacing underflows to 0 *)
Example C77_ex_underflow : let d := FInterval (S754_zero false) (S754_finite false 1 (-1074)) in
  fdiv (fsub (fi_upper d) (fi_lower d)) (of_nat 4) = S754_zero false /\
  fgrid d [5%nat] (S754_zero false) = Ok [S754_zero false; S754_zero false; S754_zero false; S754_finite false 1 (-1074); S754_finite false 1 (-1074)].
Proof. split; vm_compute; reflexivity. Qed.
