(** C75: uniform accuracy of scaled covariance functions and of sums in double precision. *)
From Coq Require Import List Reals Bool Arith ZArith Lia Lra Psatz.
From Coq.Floats Require Import SpecFloat.
From Flocq Require Import Core Relative BinarySingleNaN.
From Verif Require Import Base NdArray FunExprModel LfoModel KernelModel AdModel AdSpec AdCovModel AdCovProofs FloatModel FloatProofs FloatRoundSpec FloatRound FloatErr FloatRoundProps FloatUniformProps FloatMaternProps.
Import ListNotations.
Open Scope R_scope.
#[local] Existing Instance FloatRound.Hprec.
#[local] Existing Instance FloatRound.Hmax.
Notation u := u64.
Notation eta := eta64.

(** ** Specification: the largest absolute value, and the bound of the error *)
Definition add_bound (a b : R * R) : R * R := (fst a + fst b, (1 + u) * (snd a + snd b) + u * (fst a + fst b) + eta).
Fixpoint cov_bound (ue : R) (c : cov) : R * R :=
  match c with
  | CExp e => (1, ue + (INR (size (eq_shape e)) + 10) * u)
  | CMat m => (1, match mt_nu m with HalfInt p => 2 * ue + 2 * (INR (size (mt_shape m)) + 12) * (INR p + 2) * u | _ => 0 end)
  | CScaled s c => (Rabs s * fst (cov_bound ue c), Rabs s * ((1 + u) ^ 2 * snd (cov_bound ue c) + ((1 + u) ^ 2 - 1) * fst (cov_bound ue c)) + eta)
  | CSum cs => match map (cov_bound ue) cs with [] => (0, 0) | b :: bs => fold_left add_bound bs b end
  | _ => (0, 0)
  end.
(** Squared exponential and half-integer Matern covariance functions, scaled by numbers that are not subnormal, and
    sums of them *)
Fixpoint compound (c : cov) : Prop :=
  match c with
  | CExp e => (forall i, In i (all_indices (eq_shape e)) -> / 2 ^ 1022 <= Rabs (eq_scale e i)) /\ INR (size (eq_shape e)) <= 1048576
  | CMat m => exists p, mt_nu m = HalfInt p /\ (forall i, In i (all_indices (mt_shape m)) -> / 2 ^ 1022 <= Rabs (mt_scale m i)) /\
      (forall c, In c (mcoeffs p) -> / 2 ^ 1022 <= c) /\ INR (size (mt_shape m)) <= 1048576 /\ INR p <= 1000
  | CScaled s c => (s = 0 \/ / 2 ^ 1022 <= Rabs s) /\ compound c
  | CSum cs => fold_right and True (map compound cs)
  | _ => False
  end.

(** ** Every run gives a valid number *)
Lemma valid_pow_pos n : forall x acc, valid x -> (forall a, acc = Some a -> valid a) -> valid (fpow_pos 53 1024 x acc n).
Proof.
  assert (A : forall x acc, valid x -> (forall a : spec_float, acc = Some a -> valid a) -> valid (match acc with None => x | Some a => SFmul 53 1024 a x end)) by (intros x [a|] V H; [apply valid_mul; auto|exact V]).
  induction n as [n IH|n IH|]; intros x acc V H; cbn [fpow_pos].
  - apply IH; [now apply valid_mul|]. intros a [= <-]. now apply A.
  - apply IH; [now apply valid_mul|exact H].
  - now apply A.
Qed.
Lemma valid_run lb ue x y p : accurate lb ue -> (forall i, valid (x i)) -> (forall i, valid (y i)) -> valid (run64 lb x y p).
Proof.
  intros (_ & Hc & He & Hs & Ho) Hx Hy. unfold run64. induction p; cbn [frun].
  - destruct b; auto.
  - apply Hc.
  - now apply valid_add.
  - now apply valid_sub.
  - now apply valid_mul.
  - now apply valid_div.
  - now apply valid_opp.
  - now apply He.
  - now apply valid_sqrt.
  - now apply Hs.
  - now apply Ho.
  - destruct n; cbn [fpow]; [reflexivity|apply valid_pow_pos; [exact IHp|discriminate]|]. apply valid_div; [reflexivity|]. apply valid_pow_pos; [exact IHp|discriminate].
  - destruct (SFleb _ _); assumption.
Qed.

(** ** One operation *)
Lemma rnd_cst s : s = 0 \/ / 2 ^ 1022 <= Rabs s -> Rabs (rnd64 s - s) <= u * Rabs s.
Proof.
  intros [-> |H].
  - unfold rnd64. rewrite round_0 by apply valid_rnd_N. rewrite Rminus_0_r, Rabs_R0. lra.
  - assert (N := near_cst s H). unfold near in N. cbn in N. lra.
Qed.
Lemma scaled_step s sh k kh A E : s = 0 \/ / 2 ^ 1022 <= Rabs s -> sh = rnd64 s -> Rabs k <= A -> Rabs (kh - k) <= E ->
  Rabs (rnd64 (sh * kh) - s * k) <= Rabs s * ((1 + u) ^ 2 * E + ((1 + u) ^ 2 - 1) * A) + eta.
Proof.
  intros Hs -> HA HE. assert (S := rnd_cst s Hs). assert (U := u_lt). set (sh := rnd64 s) in *.
  assert (Ps := Rabs_pos s). assert (PE : 0 <= E) by (eapply Rle_trans; [apply Rabs_pos|exact HE]). assert (PA : 0 <= A) by (eapply Rle_trans; [apply Rabs_pos|exact HA]).
  assert (Sh : Rabs sh <= (1 + u) * Rabs s) by (replace sh with ((sh - s) + s) by ring; eapply Rle_trans; [apply Rabs_triang|lra]).
  assert (Kh : Rabs kh <= A + E) by (replace kh with (k + (kh - k)) by ring; eapply Rle_trans; [apply Rabs_triang|lra]).
  assert (P : Rabs (sh * kh) <= (1 + u) * Rabs s * (A + E)) by (rewrite Rabs_mult; apply Rmult_le_compat; try apply Rabs_pos; assumption).
  assert (Q : Rabs (sh * kh - s * k) <= u * Rabs s * (A + E) + Rabs s * E).
  { replace (sh * kh - s * k) with ((sh - s) * kh + s * (kh - k)) by ring. eapply Rle_trans; [apply Rabs_triang|]. rewrite !Rabs_mult. apply Rplus_le_compat; apply Rmult_le_compat; try apply Rabs_pos; lra. }
  assert (R := rnd_error (sh * kh)). replace (rnd64 (sh * kh) - s * k) with ((rnd64 (sh * kh) - sh * kh) + (sh * kh - s * k)) by ring.
  eapply Rle_trans; [apply Rabs_triang|]. apply (Rmult_le_compat_l u) in P; [|lra]. cbn [pow]. lra.
Qed.
Lemma add_step a ah b bh A E B F : Rabs a <= A -> Rabs (ah - a) <= E -> Rabs b <= B -> Rabs (bh - b) <= F ->
  Rabs (rnd64 (ah + bh) - (a + b)) <= (1 + u) * (E + F) + u * (A + B) + eta.
Proof.
  intros HA HE HB HF. assert (U := u_lt). assert (R := rnd_error (ah + bh)).
  assert (D : Rabs (ah + bh - (a + b)) <= E + F) by (replace (ah + bh - (a + b)) with ((ah - a) + (bh - b)) by ring; eapply Rle_trans; [apply Rabs_triang|lra]).
  assert (P : Rabs (ah + bh) <= A + B + (E + F)) by (replace (ah + bh) with ((a + b) + (ah + bh - (a + b))) by ring; eapply Rle_trans; [apply Rabs_triang|]; apply Rplus_le_compat; [eapply Rle_trans; [apply Rabs_triang|lra]|exact D]).
  replace (rnd64 (ah + bh) - (a + b)) with ((rnd64 (ah + bh) - (ah + bh)) + (ah + bh - (a + b))) by ring. eapply Rle_trans; [apply Rabs_triang|].
  apply (Rmult_le_compat_l u) in P; [|lra]. lra.
Qed.
Lemma expquad_le1 e x y : Rabs (expquad_eval e x y) <= 1.
Proof.
  unfold expquad_eval. match goal with |- context [exp (- ?t)] => assert (P : 0 <= t) end.
  { unfold bnorm_sq, bsum, rsum. generalize (all_indices (eq_shape e)). intros l. induction l as [|i l IH]; cbn [map fold_right]; [lra|]. apply Rplus_le_le_0_compat; [apply pow2_ge_0|exact IH]. }
  rewrite Rabs_pos_eq by (left; apply exp_pos). rewrite <- exp_0. destruct P as [P|P]; [left; apply exp_increasing; lra|rewrite <- P, Ropp_0; lra].
Qed.
Lemma matern_le1 m p x y : mt_nu m = HalfInt p -> Rabs (matern_eval m x y) <= 1.
Proof.
  intros H. unfold matern_eval. rewrite H, profile_f. assert (D : 0 <= mt_dist m x y) by (unfold mt_dist; apply sqrt_pos).
  rewrite Rabs_pos_eq; [|apply f_pos; [intros k; apply c0_nonneg|exact D]].
  apply f_le1; try exact D; try (rewrite c0_head; lra); intros k; first [apply c0_nonneg|apply c0_step].
Qed.

Section Compound.
Variables (lb : lib) (ue : R) (x y : farr).
Hypothesis Acc : accurate lb ue.
Hypothesis Hx : forall i, valid (x i).
Hypothesis Hy : forall i, valid (y i).
Notation run := (run64 lb x y).
Notation X := (fun i => val (x i)).
Notation Y := (fun i => val (y i)).
Definition within_bound (b : R * R) (v : R) (p : prog) : Prop := Rabs v <= fst b /\ Rabs (val (run p) - v) <= snd b.
Lemma fold_within cs ps : Forall2 (fun c p => all_fin lb x y p -> within_bound (cov_bound ue c) (ceval c X Y) p) cs ps ->
  forall b v q, (all_fin lb x y q -> within_bound b v q) -> all_fin lb x y (fold_left PAdd ps q) ->
  within_bound (fold_left add_bound (map (cov_bound ue) cs) b) (v + rsum (map (fun c => ceval c X Y) cs)) (fold_left PAdd ps q).
Proof.
  induction 1 as [|c p cs ps H HS IH]; intros b v q Hq F; cbn [map fold_left rsum fold_right] in *; [rewrite Rplus_0_r; auto|].
  rewrite <- Rplus_assoc. apply IH; [|exact F]. intros [Fa [Fq Fp]]. destruct (Hq Fq) as [A1 A2]. destruct (H Fp) as [B1 B2]. split; cbn [add_bound fst snd].
  - eapply Rle_trans; [apply Rabs_triang|lra].
  - assert (E : val (run (PAdd q p)) = rnd64 (val (run q) + val (run p))) by (apply (add_ok (run q) (run p)); [eapply valid_run; eauto|eapply valid_run; eauto|exact Fa]). rewrite E. now apply add_step.
Qed.
Lemma compound_within : forall n c p, (csize c <= n)%nat -> cov_prog c = Ok p -> compound c -> all_fin lb x y p -> within_bound (cov_bound ue c) (ceval c X Y) p.
Proof.
  induction n as [|n IH]; intros c p Hn H S F; [destruct c; cbn in Hn; lia|]. destruct c; cbn [compound] in S; try contradiction.
  - cbn [cov_prog] in H. injection H as <-. split; [apply expquad_le1|]. destruct S as [S1 S2]. apply (C75_expquad lb ue); assumption.
  - destruct S as (k & K & S1 & S2 & S3 & S4). split; [apply (matern_le1 m k _ _ K)|]. cbn [cov_bound snd ceval]. rewrite K. apply (C75_matern lb ue m k); assumption.
  - cbn [cov_prog] in H. destruct (cov_prog c) as [q|] eqn:E; [|discriminate]. cbn [bind] in H. injection H as <-. destruct S as [S1 S2]. destruct F as (Fm & Fc & Fq). cbn [csize] in Hn.
    destruct (IH c q ltac:(lia) E S2 Fq) as [B1 B2]. destruct (proj1 (proj2 Acc) s) as [Vc Ec]. cbn [all_fin] in Fc. destruct Fc as [Fc _]. split; cbn [cov_bound fst snd ceval].
    + rewrite Rabs_mult. apply Rmult_le_compat_l; [apply Rabs_pos|exact B1].
    + assert (V : val (run (PMul (PCst s) q)) = rnd64 (val (l_cst lb s) * val (run q))) by (apply (mul_ok (l_cst lb s) (run q)); [exact Vc|eapply valid_run; eauto|exact Fm]). rewrite V. apply scaled_step; try assumption. now apply Ec.
  - rename cs into cs0. rewrite cov_prog_sum in H. destruct (cprogs cs0) as [ps|] eqn:E; [|discriminate]. cbn [bind] in H. apply cprogs_in in E.
    assert (G : Forall2 (fun c p => all_fin lb x y p -> within_bound (cov_bound ue c) (ceval c X Y) p) cs0 ps).
    { assert (L : forall c, In c cs0 -> (csize c <= n)%nat) by (intros c Hc; apply csize_in in Hc; lia). clear H F Hn. induction E as [|c q cs ps Hq E IE]; constructor.
      - intros F. apply IH; auto; [apply L; now left|apply S].
      - apply IE; [apply S|]. intros c' Hc. apply L. now right. }
    destruct G as [|c q cs ps Gc G]; [discriminate H|]. cbn [preduce] in H. injection H as <-. cbn [cov_bound map ceval rsum fold_right]. apply fold_within; assumption.
Qed.
End Compound.

(** The bound depends on neither the points nor the lengthscales. *)
Theorem C75_compound : forall lb ue c p (x y : farr),
  accurate lb ue -> (forall i, valid (x i)) -> (forall i, valid (y i)) -> compound c -> cov_prog c = Ok p -> all_fin lb x y p ->
  Rabs (val (run64 lb x y p) - ceval c (fun i => val (x i)) (fun i => val (y i))) <= snd (cov_bound ue c).
Proof. intros lb ue c p x y A Hx Hy S H F. exact (proj2 (compound_within lb ue x y A Hx Hy (csize c) c p (le_n _) H S F)). Qed.

(** Twice the squared exponential covariance function plus itself, at the points 0 and 1: the hypotheses hold. *)
Example C75_ex_compound : let k := CExp (ExpQuad [] (fun _ => 1)) in forall p, cov_prog (CSum [CScaled 2 k; k]) = Ok p ->
  Rabs (val (run64 exact_lib pt0 pt1 p) - 3 * exp (- / 2)) <= 47 * / 2 ^ 53.
Proof.
  intros k p Hp. change (/ 2 ^ 53) with u. destruct fone_val as (V1 & F1 & E1). assert (U := u_lt). destruct u_eta as (N1 & N2 & U3). assert (Nt := eta_lt).
  assert (T : 1024 <= 2 ^ 40) by (replace 1024 with (2 ^ 10) by ring; apply Rle_pow; [lra|lia]).
  assert (W0 : within (pt0 []) 1) by (split; [reflexivity|]; split; [reflexivity|]; change (Rabs 0 <= 1); rewrite Rabs_R0; lra).
  assert (W1 : within (pt1 []) 1) by (split; [exact V1|]; split; [exact F1|]; unfold pt1; rewrite E1, Rabs_R1; lra).
  assert (Hx : forall i, valid (pt0 i)) by exact (fun _ => proj1 W0). assert (Hy : forall i, valid (pt1 i)) by exact (fun _ => proj1 W1).
  assert (S2 : 1 <= sqrt 2) by (rewrite <- sqrt_1; apply sqrt_le_1_alt; lra). assert (Sq : sqrt 2 * sqrt 2 = 2) by (apply sqrt_sqrt; lra).
  assert (FK : all_fin exact_lib pt0 pt1 (expquad_prog (ExpQuad [] (fun _ => 1)))) by exact (C73_ex_finite 1 pt0 pt1 ltac:(lra) W0 W1).
  assert (EX : exp (- / 2) <= 1) by (rewrite <- exp_0; left; apply exp_increasing; lra). assert (EP := exp_pos (- / 2)).
  assert (VK := valid_run exact_lib (2 * u) pt0 pt1 (expquad_prog (ExpQuad [] (fun _ => 1))) exact_lib_accurate Hx Hy).
  assert (WK : within (run64 exact_lib pt0 pt1 (expquad_prog (ExpQuad [] (fun _ => 1)))) 2).
  { split; [exact VK|]. split; [exact (all_fin_run _ _ _ _ FK)|]. assert (B := C75_ex_expquad). change (/ 2 ^ 53) with u in B. apply Rabs_le_inv in B. apply Rabs_le. lra. }
  assert (W2 := to_small 2 2 ltac:(rewrite Rabs_pos_eq; lra) ltac:(lra)).
  assert (B1 := mul_small _ _ _ _ W2 WK ltac:(lra)). assert (B2 := add_small _ _ _ _ B1 WK ltac:(lra)).
  assert (EV : ceval (CSum [CScaled 2 k; k]) (fun i => val (pt0 i)) (fun i => val (pt1 i)) = 3 * exp (- / 2)).
  { assert (G : forall v w, expquad_eval (ExpQuad [] (fun _ => 1)) (fun _ => v) (fun _ => w) = exp (- ((v - w) ^ 2 * / 2))).
    { intros v w. unfold expquad_eval, bnorm_sq, bsum. cbn. unfold vdiff, eq_scale. cbn [eq_len]. do 2 f_equal. replace (/ 2) with (/ (sqrt 2 * sqrt 2)) by now rewrite Sq. field. lra. }
    assert (G' : expquad_eval (ExpQuad [] (fun _ => 1)) (fun i => val (pt0 i)) (fun i => val (pt1 i)) = exp (- / 2)).
    { etransitivity; [exact (G 0 (val (fone 53 1024)))|]. rewrite E1. f_equal. lra. }
    unfold k. cbn [ceval map rsum fold_right]. rewrite G'. ring. }
  rewrite <- EV. eapply Rle_trans; [apply (C75_compound exact_lib (2 * u))|]; try assumption.
  - exact exact_lib_accurate.
  - assert (T2 : / 2 ^ 1022 <= / 2) by (apply Rinv_le_contravar; [lra|]; rewrite <- (pow_1 2) at 1; apply Rle_pow; [lra|lia]).
    assert (K : compound k).
    { split; [|cbn; lra]. intros i _. unfold eq_scale. cbn [eq_len]. rewrite Rabs_pos_eq by (left; apply Rdiv_lt_0_compat; lra). rewrite Rmult_1_r.
      eapply Rle_trans; [exact T2|]. unfold Rdiv. rewrite Rmult_1_l. apply Rinv_le_contravar; [lra|]. nra. }
    cbn [compound map fold_right]. repeat split; try exact K; try apply K. right. rewrite Rabs_pos_eq by lra. lra.
  - cbn in Hp. apply (f_equal (fun r => match r with Ok q => q | Err _ => p end)) in Hp. cbv beta iota in Hp. rewrite <- Hp.
    exact (conj (proj1 (proj2 B2)) (conj (conj (proj1 (proj2 B1)) (conj (conj (proj1 (proj2 W2)) I) FK)) FK)).
  - unfold k. cbn [cov_bound map fold_left add_bound fst snd eq_shape size fold_right INR pow]. rewrite (Rabs_pos_eq 2) by lra. assert (UU : u * u <= u / 1024) by nra. assert (UV : u * (u * u) <= u / 1024) by nra. assert (UE : u * eta <= u / 1024) by nra. nra.
Qed.
Print Assumptions C75_compound.
