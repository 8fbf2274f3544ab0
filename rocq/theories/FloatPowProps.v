(** C73: integer powers. *)
From Coq Require Import List Reals Bool Arith ZArith Lia Lra.
From Coq.Floats Require Import SpecFloat.
From Flocq Require Import Core Relative BinarySingleNaN.
From Verif Require Import Base NdArray FunExprModel AdModel FloatModel FloatRoundSpec FloatRound FloatErr FloatRoundProps.
Import ListNotations.
Open Scope R_scope.

Lemma rnd_rel r : 1 <= Rabs r -> Rabs (rnd64 r - r) <= u64 * Rabs r.
Proof.
  intros H. rewrite <- u_val. unfold rnd64. apply relative_error_N_FLT; [reflexivity|].
  eapply Rle_trans; [|exact H]. change 1 with (bpow radix2 0). apply bpow_le. lia.
Qed.
Lemma rnd_ge1 r : 1 <= Rabs r -> 1 <= Rabs (rnd64 r).
Proof.
  intros H. apply abs_round_ge_generic; [apply FLT_exp_valid; reflexivity|apply valid_rnd_N| |exact H].
  change 1 with (bpow radix2 0). apply generic_format_bpow. unfold FLT_exp. lia.
Qed.
Section Pow.
Variable x : R.
(** [v] approximates the power [k] as well as [k - 1] multiplications allow. *)
Definition appr (v : spec_float) (k : nat) : Prop :=
  valid v /\ 1 <= Rabs (val v) /\ (1 <= k)%nat /\ Rabs (val v - x ^ k) <= ((1 + u64) ^ (k - 1) - 1) * Rabs (x ^ k).
Lemma appr_mul v w i j : appr v i -> appr w j -> fin (SFmul 53 1024 v w) -> appr (SFmul 53 1024 v w) (i + j).
Proof.
  intros (V & V1 & Ki & E) (W & W1 & Kj & G) F. assert (M := proj2 (mul_ok v w V W) F).
  split; [now apply valid_mul|]. assert (P : 1 <= Rabs (val v * val w)) by (rewrite Rabs_mult; nra).
  rewrite M. split; [now apply rnd_ge1|]. split; [lia|].
  assert (R1 := rnd_rel _ P). assert (B := mul_bound _ _ _ _ _ _ E G). unfold mul_err in B.
  replace (i + j - 1)%nat with ((i - 1) + (j - 1) + 1)%nat by lia. rewrite (pow_add x), !(pow_add (1 + u64)), pow_1.
  assert (U := u_pos). assert (A := pow_ge1 u64 (i - 1) U). assert (A' := pow_ge1 u64 (j - 1) U).
  set (a := (1 + u64) ^ (i - 1)) in *. set (b := (1 + u64) ^ (j - 1)) in *.
  rewrite (Rabs_mult (x ^ i)). set (X := Rabs (x ^ i)) in *. set (Y := Rabs (x ^ j)) in *.
  assert (B' : Rabs (val v * val w - x ^ i * x ^ j) <= (a * b - 1) * (X * Y)) by (eapply Rle_trans; [exact B|right; ring]).
  replace (rnd64 (val v * val w) - x ^ i * x ^ j) with ((rnd64 (val v * val w) - val v * val w) + (val v * val w - x ^ i * x ^ j)) by ring.
  eapply Rle_trans; [apply Rabs_triang|].
  assert (T : Rabs (val v * val w) <= (a * b) * (X * Y)).
  { replace (val v * val w) with ((val v * val w - x ^ i * x ^ j) + x ^ i * x ^ j) by ring. eapply Rle_trans; [apply Rabs_triang|]. rewrite (Rabs_mult (x ^ i)). fold X Y. lra. }
  assert (u64 * Rabs (val v * val w) <= u64 * (a * b * (X * Y))) by (apply Rmult_le_compat_l; assumption). lra.
Qed.
Lemma pow_pos_fin n : forall b acc, fin (fpow_pos 53 1024 b acc n) -> fin b /\ match acc with Some a => fin a | None => True end.
Proof.
  induction n as [n IH|n IH|]; intros b acc F; cbn [fpow_pos] in F.
  - destruct (IH _ _ F) as [F1 F2]. apply mul_finite_args in F1 as [F1 _]. split; [exact F1|]. destruct acc; [|exact I]. now apply mul_finite_args in F2.
  - destruct (IH _ _ F) as [F1 F2]. apply mul_finite_args in F1 as [F1 _]. now split.
  - destruct acc; [|now split]. apply mul_finite_args in F. tauto.
Qed.
Lemma pow_appr n : forall b k, appr b k ->
  (fin (fpow_pos 53 1024 b None n) -> appr (fpow_pos 53 1024 b None n) (k * Pos.to_nat n)) /\
  (forall a i, appr a i -> fin (fpow_pos 53 1024 b (Some a) n) -> appr (fpow_pos 53 1024 b (Some a) n) (i + k * Pos.to_nat n)).
Proof.
  induction n as [n IH|n IH|]; intros b k Hb; cbn [fpow_pos].
  - assert (Q : fin (SFmul 53 1024 b b) -> appr (SFmul 53 1024 b b) (k + k)) by now apply appr_mul.
    split.
    + intros F. destruct (pow_pos_fin _ _ _ F) as [F1 _]. replace (k * Pos.to_nat (xI n))%nat with (k + (k + k) * Pos.to_nat n)%nat by (rewrite Pos2Nat.inj_xI; ring).
      now apply (IH _ _ (Q F1)).
    + intros a i Ha F. destruct (pow_pos_fin _ _ _ F) as [F1 F2]. replace (i + k * Pos.to_nat (xI n))%nat with ((i + k) + (k + k) * Pos.to_nat n)%nat by (rewrite Pos2Nat.inj_xI; ring).
      apply (IH _ _ (Q F1)); [|exact F]. now apply appr_mul.
  - assert (Q : fin (SFmul 53 1024 b b) -> appr (SFmul 53 1024 b b) (k + k)) by now apply appr_mul.
    split.
    + intros F. destruct (pow_pos_fin _ _ _ F) as [F1 _]. replace (k * Pos.to_nat (xO n))%nat with ((k + k) * Pos.to_nat n)%nat by (rewrite Pos2Nat.inj_xO; ring).
      now apply (IH _ _ (Q F1)).
    + intros a i Ha F. destruct (pow_pos_fin _ _ _ F) as [F1 F2]. replace (i + k * Pos.to_nat (xO n))%nat with (i + (k + k) * Pos.to_nat n)%nat by (rewrite Pos2Nat.inj_xO; ring).
      now apply (IH _ _ (Q F1)).
  - split; [intros _; now rewrite Pos2Nat.inj_1, Nat.mul_1_r|]. intros a i Ha F. rewrite Pos2Nat.inj_1, Nat.mul_1_r. now apply appr_mul.
Qed.
End Pow.

(** The power of a number of absolute value at least 1, without overflow: [n - 1] relative errors. *)
Theorem C73_power : forall lb (x y : farr) p n, let b := run64 lb x y p in let r := run64 lb x y (PPow p (Zpos n)) in
  valid b -> 1 <= Rabs (val b) -> fin r ->
  Rabs (val r - val b ^ Pos.to_nat n) <= ((1 + u64) ^ (Pos.to_nat n - 1) - 1) * Rabs (val b ^ Pos.to_nat n).
Proof.
  intros lb x y p n b r V H F.
  assert (A : appr (val b) b 1) by (split; [exact V|]; split; [exact H|]; split; [lia|]; cbn [Nat.sub pow]; rewrite Rmult_1_r, !Rminus_eq_0, Rabs_R0; lra).
  assert (P := proj1 (pow_appr (val b) n b 1 A) F). rewrite Nat.mul_1_l in P. apply P.
Qed.
(** Power zero, of anything *)
Theorem C73_power_zero : forall lb (x y : farr) p, val (run64 lb x y (PPow p 0)) = 1.
Proof. intros. apply fone_val. Qed.
(** Negative powers are the rounded reciprocals of the computed powers. *)
Theorem C73_reciprocal : forall lb (x y : farr) p n, let b := run64 lb x y p in
  let q := run64 lb x y (PPow p (Zpos n)) in let r := run64 lb x y (PPow p (Zneg n)) in
  valid b -> 1 <= Rabs (val b) -> fin q ->
  fin r /\ Rabs (val r - / val q) <= u64 * Rabs (/ val q) + eta64.
Proof.
  intros lb x y p n b q r V H F.
  assert (A : appr (val b) b 1) by (split; [exact V|]; split; [exact H|]; split; [lia|]; cbn [Nat.sub pow]; rewrite Rmult_1_r, !Rminus_eq_0, Rabs_R0; lra).
  assert (P := proj1 (pow_appr (val b) n b 1 A) F). destruct P as (Vq & Q1 & _).
  change (fpow_pos 53 1024 b None n) with q in Vq, Q1.
  assert (N : val q <> 0) by (intros E; rewrite E, Rabs_R0 in Q1; lra). destruct fone_val as (V1 & F1 & E1).
  destruct (div_ok (fone 53 1024) q V1 Vq F1 N) as [D1 D2]. rewrite E1 in D1, D2.
  replace (1 / val q) with (/ val q) in D1, D2 by (unfold Rdiv; ring).
  assert (Fr : fin r).
  { apply D1, (small_ok _ 1); [|apply pow_R1_Rle; lra]. rewrite Rabs_inv, <- Rinv_1. apply Rinv_le_contravar; [lra|exact Q1]. }
  split; [exact Fr|]. change (val r) with (val (SFdiv 53 1024 (fone 53 1024) q)). rewrite (D2 Fr). apply rnd_error.
Qed.
(** [Monomial] *)
Theorem C73_monomial : forall lb (x y : farr) n, valid (x []) -> 1 <= Rabs (val (x [])) -> fin (run64 lb x y (monomial_prog n)) ->
  Rabs (val (run64 lb x y (monomial_prog n)) - val (x []) ^ n) <= ((1 + u64) ^ (n - 1) - 1) * Rabs (val (x []) ^ n).
Proof.
  intros lb x y n V H F. destruct n as [|n].
  - unfold monomial_prog. change (Z.of_nat 0) with 0%Z. rewrite C73_power_zero. cbn [pow Nat.sub]. rewrite !Rminus_eq_0, Rabs_R0. lra.
  - unfold monomial_prog in *. change (Z.of_nat (S n)) with (Zpos (Pos.of_succ_nat n)) in *.
    assert (B := C73_power lb x y (PVar false []) (Pos.of_succ_nat n) V H F). rewrite SuccNat2Pos.id_succ in B. exact B.
Qed.
Example C73_ex_power : let x : farr := fun _ => S754_finite false 6755399441055744 (-51) in
  valid (x []) /\ 1 <= Rabs (val (x [])) /\ fin (run64 exact_lib x x (monomial_prog 37)).
Proof.
  intros x. split; [reflexivity|]. split; [|vm_compute; reflexivity].
  assert (E : val (x []) = 3). { unfold x, val. cbn [SF2R cond_Zopp]. unfold F2R. cbn [Fnum Fexp]. change (bpow radix2 (-51)) with (/ IZR (Z.pow_pos 2 51)).
    change (Z.pow_pos 2 51) with 2251799813685248%Z. lra. }
  rewrite E, Rabs_pos_eq; lra.
Qed.
Print Assumptions C73_power.
Print Assumptions C73_power_zero.
Print Assumptions C73_reciprocal.
Print Assumptions C73_monomial.
