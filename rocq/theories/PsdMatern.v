(** The Matérn profiles of half-integer smoothness as mixtures of Gaussians. *)
From Coq Require Import List Arith Lia Reals Lra.
From Coquelicot Require Import Coquelicot.
From Verif Require Import Base ParamSpec KernelModel KernelSpec MaternPoly TensorSchur PsdBase.
Import ListNotations.
Open Scope R_scope.

(** ** Three-term recurrence of the profiles *)
Lemma c0_zero p : c0 p 0 = 1.
Proof.
  unfold c0. cbn [Nat.leb]. rewrite !Nat.sub_0_r. change (2 ^ 0)%nat with 1%nat. change (fact 0) with 1%nat. rewrite !Nat.mul_1_r, !mult_INR.
  pose proof (INR_fact_neq_0 p). pose proof (INR_fact_neq_0 (2 * p)). field. auto.
Qed.
Lemma c0_one q : c0 (S q) 1 = 1.
Proof.
  unfold c0. cbn [Nat.leb]. replace (2 * S q - 1)%nat with (S (2 * q)) by lia. replace (2 * S q)%nat with (S (S (2 * q))) by lia.
  replace (S q - 1)%nat with q by lia. change (2 ^ 1)%nat with 2%nat. change (fact 1) with 1%nat. rewrite !mult_INR, !INR_fact_S, !S_INR, !mult_INR. change (INR 2) with 2. change (INR 0) with 0.
  pose proof (pos_INR q). pose proof (INR_fact_neq_0 q). pose proof (INR_fact_neq_0 (2 * q)). field. repeat split; try assumption; lra.
Qed.
Lemma c0_three q j : c0 (S (S q)) (S (S j)) = c0 (S q) (S (S j)) + c0 q j / ((2 * INR q + 3) * (2 * INR q + 1)).
Proof.
  unfold c0. destruct (Nat.leb_spec (S (S j)) (S q)) as [H|H].
  - destruct (Nat.leb_spec (S (S j)) (S (S q))); [|lia]. destruct (Nat.leb_spec j q); [|lia].
    destruct (Nat.le_exists_sub (S j) q) as (d & -> & _); [lia|].
    replace (2 * S (S (d + S j)) - S (S j))%nat with (S (S (S (S (2 * d + j))))) by lia.
    replace (2 * S (d + S j) - S (S j))%nat with (S (S (2 * d + j))) by lia.
    replace (2 * (d + S j) - j)%nat with (S (S (2 * d + j))) by lia.
    replace (2 * S (S (d + S j)))%nat with (S (S (S (S (2 * (d + S j)))))) by lia.
    replace (2 * S (d + S j))%nat with (S (S (2 * (d + S j)))) by lia.
    replace (S (S (d + S j)) - S (S j))%nat with (S d) by lia. replace (S (d + S j) - S (S j))%nat with d by lia. replace (d + S j - j)%nat with (S d) by lia.
    rewrite !mult_INR, !pow_INR. change (INR 2) with 2. rewrite !INR_fact_S, !S_INR, ?plus_INR, ?mult_INR, ?S_INR. change (INR 2) with 2. rewrite ?plus_INR, ?mult_INR, ?S_INR.
    change (INR 2) with 2. cbn [pow].
    pose proof (pos_INR d) as Pd. pose proof (pos_INR j) as Pj. pose proof (INR_fact_neq_0 (2 * d + j)) as F1.
    pose proof (INR_fact_neq_0 (d + S j)) as F2. pose proof (INR_fact_neq_0 (2 * (d + S j))) as F3. pose proof (INR_fact_neq_0 j) as F4. pose proof (INR_fact_neq_0 d) as F5.
    simpl (INR 0) in *. field. repeat split; try assumption; try lra.
  - destruct (Nat.leb_spec (S (S j)) (S (S q))) as [H2|H2].
    + assert (j = q) by lia. subst j. destruct (Nat.leb_spec q q); [|lia].
      replace (2 * S (S q) - S (S q))%nat with (S (S q)) by lia. replace (2 * S (S q))%nat with (S (S (S (S (2 * q))))) by lia. replace (S (S q) - S (S q))%nat with 0%nat by lia. replace (q - q)%nat with 0%nat by lia.
      replace (2 * q - q)%nat with q by lia.
      rewrite !mult_INR, !pow_INR. change (INR 2) with 2. rewrite !INR_fact_S, !S_INR, ?mult_INR. change (INR 2) with 2. change (INR (fact 0)) with 1. cbn [pow].
      pose proof (pos_INR q) as Pq. pose proof (INR_fact_neq_0 (2 * q)) as F1. pose proof (INR_fact_neq_0 q) as F2.
      field. repeat split; try assumption; try lra.
    + destruct (Nat.leb_spec j q); [lia|]. unfold Rdiv. ring.
Qed.
Lemma c0_beyond p k : (p < k)%nat -> c0 p k = 0.
Proof. intros H. unfold c0. destruct (Nat.leb_spec k p); [lia|reflexivity]. Qed.
Lemma E_long p n z N : (p <= N)%nat -> E p n z = sum_f_R0 (fun k => mc p n k * z ^ k) N.
Proof.
  intros H. rewrite E_sum. induction H as [|N H IH]; [reflexivity|]. cbn [sum_f_R0]. rewrite <- IH, (mc_beyond p n (S N)) by lia. ring.
Qed.
Lemma E_three q z : E (S (S q)) 0 z = E (S q) 0 z + z ^ 2 / ((2 * INR q + 3) * (2 * INR q + 1)) * E q 0 z.
Proof.
  pose proof (pos_INR q) as Pq.
  rewrite (E_long (S (S q)) 0 z (S (S q))), (E_long (S q) 0 z (S (S q))), (E_sum q) by lia.
  rewrite !(decomp_sum _ (S (S q))) by lia. cbn [pred]. rewrite !(decomp_sum (fun i => mc _ 0 (S i) * z ^ S i) (S q)) by lia. cbn [pred].
  rewrite !mc_0, !c0_zero, !c0_one. rewrite scal_sum.
  rewrite (sum_eq (fun i => mc (S (S q)) 0 (S (S i)) * z ^ S (S i))
                  (fun i => mc (S q) 0 (S (S i)) * z ^ S (S i) + mc q 0 i * z ^ i * (z ^ 2 / ((2 * INR q + 3) * (2 * INR q + 1))))).
  - rewrite sum_plus. ring.
  - intros i _. rewrite !mc_0, c0_three. cbn [pow]. field. lra.
Qed.
Lemma E_0 z : E 0 0 z = 1.
Proof. rewrite E_sum. cbn [sum_f_R0]. rewrite mc_0, c0_zero. cbn. ring. Qed.
Lemma E_1 z : E 1 0 z = 1 + z.
Proof. rewrite E_sum. cbn [sum_f_R0]. rewrite !mc_0, c0_zero, c0_one. cbn. ring. Qed.
(** The profile itself *)
Lemma half_E p r : matern_half p r = E p 0 r * exp (- r).
Proof. rewrite <- profile_half. reflexivity. Qed.
Lemma half_three q r : matern_half (S (S q)) r = matern_half (S q) r + r ^ 2 / ((2 * INR q + 3) * (2 * INR q + 1)) * matern_half q r.
Proof. rewrite !half_E, E_three. ring. Qed.

(** ** The error integral *)
Definition gau (v : R) : R := exp (- v ^ 2).
Lemma gau_cont v : continuous gau v.
Proof. apply (ex_derive_continuous gau). unfold gau. auto_derive. trivial. Qed.
Lemma gau_ex a b : ex_RInt gau a b.
Proof. apply (ex_RInt_continuous (V := R_CompleteNormedModule)). intros; apply gau_cont. Qed.
Definition erf (x : R) : R := RInt gau 0 x.
Lemma erf_derive x : is_derive erf x (gau x).
Proof.
  apply (is_derive_RInt (V := R_NormedModule) gau erf 0 x); [|apply gau_cont].
  apply filter_forall. intros y. apply (RInt_correct (V := R_CompleteNormedModule)). apply gau_ex.
Qed.
Lemma erf_0 : erf 0 = 0.
Proof. apply (RInt_point (V := R_CompleteNormedModule)). Qed.
Lemma gau_pos v : 0 < gau v.
Proof. apply exp_pos. Qed.
Lemma erf_incr x y : x <= y -> erf x <= erf y.
Proof.
  intros H. assert (E1 : erf y = erf x + RInt gau x y).
  { symmetry. apply (RInt_Chasles (V := R_CompleteNormedModule)); apply gau_ex. }
  rewrite E1. assert (0 <= RInt gau x y); [|lra]. apply RInt_ge_0; [exact H|apply gau_ex|]. intros v _. left. apply gau_pos.
Qed.
Lemma erf_odd x : erf (- x) = - erf x.
Proof.
  destruct (MVT_gen (fun t => erf (- t) + erf t) 0 x (fun _ => 0)) as (c & _ & E1).
  - intros t _. evar_last. apply @is_derive_plus; [|apply erf_derive]. apply (is_derive_comp erf Ropp); [apply erf_derive|]. auto_derive; [trivial|reflexivity].
    unfold scal, plus. cbn. unfold mult. cbn. unfold gau. replace ((- t) ^ 2) with (t ^ 2) by ring. ring.
  - intros t _. apply continuity_pt_plus.
    + apply continuity_pt_filterlim. apply (continuous_comp Ropp erf); [apply (continuous_opp (V := R_NormedModule)); apply continuous_id|].
      apply (ex_derive_continuous erf). eexists. apply erf_derive.
    + apply continuity_pt_filterlim. apply (ex_derive_continuous erf). eexists. apply erf_derive.
  - rewrite Ropp_0, erf_0 in E1. lra.
Qed.
Lemma erf_bound x : erf x <= 3.
Proof.
  destruct (Rle_dec x 0) as [H|H]; [apply Rle_trans with (erf 0); [now apply erf_incr|rewrite erf_0; lra]|].
  destruct (MVT_gen (fun t => erf t + 2 * exp (- t)) 0 x (fun t => gau t - 2 * exp (- t))) as (c & Hc & E1).
  - intros t _. evar_last. apply @is_derive_plus; [apply erf_derive|]. apply is_derive_scal. auto_derive; [trivial|reflexivity]. unfold plus. cbn. ring.
  - intros t _. apply continuity_pt_filterlim. apply (ex_derive_continuous (fun t => erf t + 2 * exp (- t))). eexists. apply @is_derive_plus; [apply erf_derive|].
    apply is_derive_scal. auto_derive; [trivial|reflexivity].
  - rewrite Rmin_left, Rmax_right in Hc by lra. rewrite erf_0, Ropp_0, exp_0 in E1.
    assert (G : gau c <= 2 * exp (- c)).
    { unfold gau. destruct (Rle_dec 1 c) as [H1|H1].
      - assert (exp (- c ^ 2) <= exp (- c)). { destruct (Req_dec c 1) as [->|]; [right; f_equal; ring|left; apply exp_increasing; nra]. } pose proof (exp_pos (- c)). lra.
      - pose proof (exp_ineq1_le (- c ^ 2 + c)) as B. assert (Hx : exp (- c ^ 2) * exp c <= 2).
        { rewrite <- exp_plus. pose proof (exp_ineq1_le (- (- c ^ 2 + c))) as B2. rewrite exp_Ropp in B2.
          set (e := exp (- c ^ 2 + c)) in *. assert (Pe : 0 < e) by apply exp_pos. assert (B3 : 3 / 4 <= / e). { apply Rle_trans with (2 := B2). pose proof (pow2_ge_0 (c - 1 / 2)). nra. }
          assert (e * / e = 1) by (field; lra). nra. }
        rewrite (exp_Ropp c). set (e := exp c) in *. assert (0 < e) by apply exp_pos. apply Rmult_le_reg_r with e; [assumption|]. replace (2 * / e * e) with 2 by (field; lra). exact Hx. }
    pose proof (exp_pos (- x)). nra.
Qed.
Lemma erf_limit : exists C, 0 < C /\ is_lim erf p_infty C.
Proof.
  assert (Hf : ex_finite_lim_seq (fun n => erf (INR n))).
  { apply (ex_finite_lim_seq_incr _ 3); [|intros; apply erf_bound]. intros n. apply erf_incr. rewrite S_INR. lra. }
  destruct Hf as (C & HC). exists C.
  assert (Le : forall n, erf (INR n) <= C).
  { intros n. apply (is_lim_seq_incr_compare (fun n => erf (INR n)) C HC). intros k. apply erf_incr. rewrite S_INR. lra. }
  split.
  - apply Rlt_le_trans with (erf 1); [|apply (Le 1%nat)]. unfold erf. apply RInt_gt_0; [lra|intros; apply gau_pos|intros; apply gau_cont].
  - apply is_lim_spec. intros eps. apply is_lim_seq_spec in HC. destruct (HC eps) as (N & HN). exists (INR N). intros x Hx.
    specialize (HN N (le_n N)). assert (A1 : erf (INR N) <= erf x) by (apply erf_incr; lra).
    destruct (nfloor_ex (Rabs x) (Rabs_pos x)) as (n & _ & Hn). assert (A2 : erf x <= erf (INR (S n))) by (apply erf_incr; rewrite S_INR; pose proof (RRle_abs x); lra).
    pose proof (Le (S n)) as A3. apply Rabs_def2 in HN. apply Rabs_def1; lra.
Qed.

(** ** The mixtures *)
Definition mixand (a : R) (u : R) : R := exp (- u ^ 2 - a ^ 2 / u ^ 2).
Lemma mixand_cont a u : u <> 0 -> continuous (mixand a) u.
Proof. intros H. apply (ex_derive_continuous (mixand a)). unfold mixand. auto_derive. repeat split; trivial. nra. Qed.
Lemma mixand_derive a u : u <> 0 -> is_derive (mixand a) u ((- 2 * u + 2 * a ^ 2 / u ^ 3) * mixand a u).
Proof. intros H. unfold mixand. auto_derive; [repeat split; trivial; nra|]. match goal with |- context[exp ?z] => set (e := exp z) end. change (exp (- u ^ 2 - a ^ 2 / u ^ 2)) with e. clearbody e. field. exact H. Qed.
Lemma mixand_pos a u : 0 < mixand a u.
Proof. apply exp_pos. Qed.
Lemma mixand_le a u : u <> 0 -> mixand a u <= exp (- u ^ 2).
Proof.
  intros N. unfold mixand. assert (H : 0 <= a ^ 2 / u ^ 2) by (apply Rdiv_le_0_compat; [apply pow2_ge_0|apply pow2_gt_0; exact N]).
  destruct (Req_dec (a ^ 2 / u ^ 2) 0) as [->|N']; [right; f_equal; ring|left; apply exp_increasing; lra].
Qed.
Definition NN (n : nat) : R := INR (S n).
Lemma NN_ge n : 1 <= NN n.
Proof. unfold NN. rewrite S_INR. pose proof (pos_INR n). lra. Qed.
Lemma NN_lim : is_lim_seq NN p_infty.
Proof. apply (is_lim_seq_incr_1 INR p_infty). apply is_lim_seq_INR. Qed.
Lemma NNi_lim : is_lim_seq (fun n => / NN n) 0.
Proof. apply (is_lim_seq_inv NN p_infty NN_lim). discriminate. Qed.
Definition moment (p : nat) (a : R) (n : nat) : R := RInt (fun u => u ^ (2 * p) * mixand a u) (/ NN n) (NN n).
Definition moment_inv (a : R) (n : nat) : R := RInt (fun u => / u ^ 2 * mixand a u) (/ NN n) (NN n).
Lemma bounds n : 0 < / NN n <= NN n.
Proof.
  pose proof (NN_ge n) as H. split; [apply Rinv_0_lt_compat; lra|]. apply Rmult_le_reg_r with (NN n); [lra|]. rewrite Rinv_l by lra. nra.
Qed.
Lemma in_pos n u : Rmin (/ NN n) (NN n) <= u <= Rmax (/ NN n) (NN n) -> 0 < u.
Proof. pose proof (bounds n) as B. rewrite Rmin_left, Rmax_right by lra. lra. Qed.
Lemma ex_moment f a n : (forall u, 0 < u -> continuous f u) -> ex_RInt (fun u => f u * mixand a u) (/ NN n) (NN n).
Proof.
  intros H. apply (ex_RInt_continuous (V := R_CompleteNormedModule)). intros u Hu. apply in_pos in Hu.
  apply (continuous_mult (K := R_AbsRing) f (mixand a)); [now apply H|apply mixand_cont; lra].
Qed.
Lemma pow_cont k u : continuous (fun u => u ^ k) u.
Proof. apply (ex_derive_continuous (fun u => u ^ k)). auto_derive. trivial. Qed.
Lemma inv2_cont u : 0 < u -> continuous (fun u => / u ^ 2) u.
Proof. intros H. apply (ex_derive_continuous (fun u => / u ^ 2)). auto_derive. nra. Qed.
Lemma pow_exp k x : 0 <= x -> x ^ k <= INR (fact k) * exp x.
Proof.
  intros Hx. pose proof (is_exp_Reals x) as Ex. unfold is_pseries in Ex.
  assert (L : is_lim_seq (sum_n (fun i => x ^ i * / INR (fact i))) (exp x)).
  { apply (is_lim_seq_ext (sum_n (fun i => scal (pow_n x i) (/ INR (fact i))))); [|exact Ex]. intros n. apply sum_n_ext. intros i. unfold scal. cbn. unfold mult. cbn. now rewrite pow_n_pow. }
  assert (T : forall i, 0 <= x ^ i * / INR (fact i)) by (intros i; apply Rmult_le_pos; [now apply pow_le|left; apply Rinv_0_lt_compat, INR_fact_lt_0]).
  assert (Sn : forall n, sum_n (fun i => x ^ i * / INR (fact i)) (S n) = sum_n (fun i => x ^ i * / INR (fact i)) n + x ^ S n * / INR (fact (S n))).
  { intros n. rewrite sum_Sn. reflexivity. }
  assert (B : sum_n (fun i => x ^ i * / INR (fact i)) k <= exp x).
  { apply (is_lim_seq_incr_compare _ _ L). intros n. rewrite Sn. specialize (T (S n)). lra. }
  assert (B2 : x ^ k * / INR (fact k) <= exp x).
  { apply Rle_trans with (2 := B). destruct k as [|j]; [rewrite sum_O; apply Rle_refl|]. rewrite Sn.
    assert (0 <= sum_n (fun i => x ^ i * / INR (fact i)) j); [|lra]. rewrite sum_n_Reals. apply cond_pos_sum. exact T. }
  pose proof (INR_fact_lt_0 k) as P. apply Rmult_le_reg_r with (/ INR (fact k)); [now apply Rinv_0_lt_compat|].
  replace (INR (fact k) * exp x * / INR (fact k)) with (exp x) by (field; lra). exact B2.
Qed.
(** Integration by parts *)
Lemma part_vanishes k a : is_lim_seq (fun n => NN n ^ S k * mixand a (NN n) - (/ NN n) ^ S k * mixand a (/ NN n)) 0.
Proof.
  set (c := INR (fact (S (S k)))).
  apply (is_lim_seq_le_le (fun n => - / NN n) _ (fun n => c * / NN n)).
  - intros n. pose proof (NN_ge n) as G. pose proof (bounds n) as B. set (N := NN n) in *.
    assert (A1 : 0 <= N ^ S k * mixand a N) by (apply Rmult_le_pos; [apply pow_le; lra|left; apply mixand_pos]).
    assert (A2 : 0 <= (/ N) ^ S k * mixand a (/ N)) by (apply Rmult_le_pos; [apply pow_le; lra|left; apply mixand_pos]).
    assert (A3 : (/ N) ^ S k * mixand a (/ N) <= / N).
    { assert (L1 : (/ N) ^ S k <= / N).
      { cbn [pow]. assert ((/ N) ^ k <= 1); [|nra]. rewrite <- (pow1 k). apply pow_incr. split; [lra|]. rewrite <- Rinv_1. apply Rinv_le_contravar; lra. }
      assert (L2 : mixand a (/ N) <= 1).
      { apply Rle_trans with (1 := mixand_le a (/ N) ltac:(lra)). rewrite <- exp_0. destruct (Req_dec (- (/ N) ^ 2) 0) as [->|]; [lra|left; apply exp_increasing; nra]. }
      pose proof (mixand_pos a (/ N)). assert (0 <= (/ N) ^ S k) by (apply pow_le; lra). nra. }
    assert (A4 : N ^ S k * mixand a N <= c * / N).
    { apply Rmult_le_reg_r with N; [lra|]. replace (c * / N * N) with c by (field; lra).
      assert (Q : N ^ S (S k) <= c * exp N) by (apply pow_exp; lra).
      assert (M : mixand a N * exp N <= 1).
      { apply Rle_trans with (exp (- N ^ 2) * exp N); [apply Rmult_le_compat_r; [left; apply exp_pos|apply mixand_le; lra]|].
        rewrite <- exp_plus, <- exp_0. destruct (Req_dec (- N ^ 2 + N) 0) as [->|]; [lra|left; apply exp_increasing; nra]. }
      replace (N ^ S k * mixand a N * N) with (N ^ S (S k) * mixand a N) by (cbn [pow]; ring).
      pose proof (mixand_pos a N) as MP. assert (c0 : 0 < c) by apply INR_fact_lt_0.
      apply Rle_trans with (c * exp N * mixand a N); [apply Rmult_le_compat_r; lra|]. nra. }
    lra.
  - replace (Finite 0) with (Rbar_opp 0) by (cbn; f_equal; ring). apply -> is_lim_seq_opp. exact NNi_lim.
  - replace (Finite 0) with (Rbar_mult c 0) by (cbn; f_equal; ring). apply (is_lim_seq_scal_l _ c 0). exact NNi_lim.
Qed.
Lemma derive_int (f f' : R -> R) n : (forall u, 0 < u -> is_derive f u (f' u)) -> (forall u, 0 < u -> continuous f' u) ->
  RInt f' (/ NN n) (NN n) = f (NN n) - f (/ NN n).
Proof.
  intros D Co. apply is_RInt_unique. apply (is_RInt_derive (V := R_CompleteNormedModule)).
  - intros u Hu. apply D. now apply in_pos in Hu.
  - intros u Hu. apply Co. now apply in_pos in Hu.
Qed.
Lemma pm_cont k a u : 0 < u -> continuous (fun u => u ^ k * mixand a u) u.
Proof. intros H. apply (continuous_mult (K := R_AbsRing) (fun u => u ^ k) (mixand a)); [apply pow_cont|apply mixand_cont; lra]. Qed.
Lemma im_cont a u : 0 < u -> continuous (fun u => / u ^ 2 * mixand a u) u.
Proof. intros H. apply (continuous_mult (K := R_AbsRing) (fun u => / u ^ 2) (mixand a)); [apply inv2_cont; exact H|apply mixand_cont; lra]. Qed.
Lemma pow_derive m u : is_derive (fun u => u ^ S m) u (INR (S m) * u ^ m).
Proof. evar_last; [apply (is_derive_pow (fun u => u) (S m) u 1); apply @is_derive_id|]. cbn [pred]. ring. Qed.
Lemma moment_rec q a n : moment (S (S q)) a n = (2 * INR q + 3) / 2 * moment (S q) a n + a ^ 2 * moment q a n
  - (NN n ^ S (2 * S q) * mixand a (NN n) - (/ NN n) ^ S (2 * S q) * mixand a (/ NN n)) / 2.
Proof.
  rewrite <- (derive_int (fun u => u ^ S (2 * S q) * mixand a u)
    (fun u => (2 * INR q + 3) * (u ^ (2 * S q) * mixand a u) - 2 * (u ^ (2 * S (S q)) * mixand a u) + 2 * a ^ 2 * (u ^ (2 * q) * mixand a u))).
  - assert (M : forall p, ex_RInt (fun u => u ^ (2 * p) * mixand a u) (/ NN n) (NN n)) by (intros p; apply ex_moment; intros; apply pow_cont).
    assert (Ex : is_RInt (fun u => (2 * INR q + 3) * (u ^ (2 * S q) * mixand a u) - 2 * (u ^ (2 * S (S q)) * mixand a u) + 2 * a ^ 2 * (u ^ (2 * q) * mixand a u))
      (/ NN n) (NN n) ((2 * INR q + 3) * moment (S q) a n - 2 * moment (S (S q)) a n + 2 * a ^ 2 * moment q a n)).
    { apply (is_RInt_plus (V := R_NormedModule)); [apply (is_RInt_minus (V := R_NormedModule))|];
        apply (is_RInt_scal (V := R_NormedModule)); apply (RInt_correct (V := R_CompleteNormedModule)); apply M. }
    rewrite (is_RInt_unique _ _ _ _ Ex). field.
  - intros u Hu. evar_last.
    + apply (is_derive_mult (fun u => u ^ S (2 * S q)) (mixand a)); [apply pow_derive|apply mixand_derive; lra|apply Rmult_comm].
    + unfold plus, mult. cbn [AbelianGroup.plus Ring.mult]. cbn -[pow INR Nat.mul mixand].
      replace (2 * S (S q))%nat with (S (S (S (S (2 * q))))) by lia. replace (2 * S q)%nat with (S (S (2 * q))) by lia.
      rewrite !S_INR, mult_INR. change (INR 2) with 2. cbn [pow]. field. lra.
  - intros u Hu. apply (continuous_plus (V := R_NormedModule)); [apply (continuous_minus (V := R_NormedModule))|];
      apply (continuous_scal_r (V := R_NormedModule)); apply pm_cont; exact Hu.
Qed.
Lemma moment_one a n : moment 1 a n = / 2 * moment 0 a n + a ^ 2 * moment_inv a n
  - (NN n ^ 1 * mixand a (NN n) - (/ NN n) ^ 1 * mixand a (/ NN n)) / 2.
Proof.
  rewrite <- (derive_int (fun u => u ^ 1 * mixand a u)
    (fun u => u ^ (2 * 0) * mixand a u - 2 * (u ^ (2 * 1) * mixand a u) + 2 * a ^ 2 * (/ u ^ 2 * mixand a u))).
  - assert (M : forall p, ex_RInt (fun u => u ^ (2 * p) * mixand a u) (/ NN n) (NN n)) by (intros p; apply ex_moment; intros; apply pow_cont).
    assert (M' : ex_RInt (fun u => / u ^ 2 * mixand a u) (/ NN n) (NN n)) by (apply (ex_moment (fun u => / u ^ 2)); apply inv2_cont).
    assert (Ex : is_RInt (fun u => u ^ (2 * 0) * mixand a u - 2 * (u ^ (2 * 1) * mixand a u) + 2 * a ^ 2 * (/ u ^ 2 * mixand a u))
      (/ NN n) (NN n) (moment 0 a n - 2 * moment 1 a n + 2 * a ^ 2 * moment_inv a n)).
    { apply (is_RInt_plus (V := R_NormedModule)); [apply (is_RInt_minus (V := R_NormedModule)); [|apply (is_RInt_scal (V := R_NormedModule))]|apply (is_RInt_scal (V := R_NormedModule))];
        apply (RInt_correct (V := R_CompleteNormedModule)); [apply M|apply M|apply M']. }
    rewrite (is_RInt_unique _ _ _ _ Ex). field.
  - intros u Hu. evar_last.
    + apply (is_derive_mult (fun u => u ^ 1) (mixand a)); [apply pow_derive|apply mixand_derive; lra|apply Rmult_comm].
    + unfold plus, mult. cbn [AbelianGroup.plus Ring.mult]. cbn -[pow INR Nat.mul mixand]. change (2 * 0)%nat with 0%nat. change (2 * 1)%nat with 2%nat. change (INR 1) with 1. cbn [pow]. field. lra.
  - intros u Hu. apply (continuous_plus (V := R_NormedModule)); [apply (continuous_minus (V := R_NormedModule)); [|apply (continuous_scal_r (V := R_NormedModule))]|apply (continuous_scal_r (V := R_NormedModule))].
    + now apply pm_cont.
    + now apply pm_cont.
    + now apply im_cont.
Qed.
(** The case [p = 0]: with [v = u - a / u] and [v = u + a / u] *)
Lemma gau_minus a u : u <> 0 -> exp (- (2 * a)) * gau (u - a / u) = mixand a u.
Proof. intros H. unfold gau, mixand. rewrite <- exp_plus. f_equal. field. exact H. Qed.
Lemma gau_plus a u : u <> 0 -> exp (2 * a) * gau (u + a / u) = mixand a u.
Proof. intros H. unfold gau, mixand. rewrite <- exp_plus. f_equal. field. exact H. Qed.
Lemma base_int s a n : moment 0 a n + s * a * moment_inv a n = RInt (fun u => (1 + s * a / u ^ 2) * mixand a u) (/ NN n) (NN n).
Proof.
  symmetry. apply is_RInt_unique. apply (is_RInt_ext (fun u => u ^ (2 * 0) * mixand a u + s * a * (/ u ^ 2 * mixand a u))).
  - intros u Hu. pose proof (bounds n) as B. rewrite Rmin_left in Hu by lra. change (2 * 0)%nat with 0%nat. match goal with |- ?x = ?y => change (@eq R x y) end. cbn [pow]. field. lra.
  - apply (is_RInt_plus (V := R_NormedModule)); [|apply (is_RInt_scal (V := R_NormedModule))]; apply (RInt_correct (V := R_CompleteNormedModule)).
    + apply (ex_moment (fun u => u ^ (2 * 0))). intros; apply pow_cont.
    + apply (ex_moment (fun u => / u ^ 2)). apply inv2_cont.
Qed.
Lemma base_cont s a u : 0 < u -> continuous (fun u => (1 + s * a / u ^ 2) * mixand a u) u.
Proof.
  intros H. apply (continuous_mult (K := R_AbsRing) (fun u => 1 + s * a / u ^ 2) (mixand a)); [|apply mixand_cont; lra].
  apply (ex_derive_continuous (fun u => 1 + s * a / u ^ 2)). auto_derive. nra.
Qed.
Lemma base_minus a n : moment 0 a n + a * moment_inv a n = exp (- (2 * a)) * (erf (NN n - a / NN n) - erf (/ NN n - a / / NN n)).
Proof.
  replace (a * moment_inv a n) with (1 * a * moment_inv a n) by ring. rewrite base_int.
  rewrite (derive_int (fun u => exp (- (2 * a)) * erf (u - a / u)) _ n).
  - ring.
  - intros u Hu. evar_last.
    + apply is_derive_scal. apply (is_derive_comp erf (fun u => u - a / u)); [apply erf_derive|]. auto_derive; [lra|reflexivity].
    + unfold scal. cbn. unfold mult. cbn. rewrite <- gau_minus by lra. field. lra.
  - apply base_cont.
Qed.
Lemma base_plus a n : moment 0 a n - a * moment_inv a n = exp (2 * a) * (erf (NN n + a / NN n) - erf (/ NN n + a / / NN n)).
Proof.
  replace (moment 0 a n - a * moment_inv a n) with (moment 0 a n + (-1) * a * moment_inv a n) by ring. rewrite base_int.
  rewrite (derive_int (fun u => exp (2 * a) * erf (u + a / u)) _ n).
  - ring.
  - intros u Hu. evar_last.
    + apply is_derive_scal. apply (is_derive_comp erf (fun u => u + a / u)); [apply erf_derive|]. auto_derive; [lra|reflexivity].
    + unfold scal. cbn. unfold mult. cbn. rewrite <- gau_plus by lra. field. lra.
  - apply base_cont.
Qed.
Lemma erf_seq (C : R) u : is_lim erf p_infty C -> is_lim_seq u p_infty -> is_lim_seq (fun n => erf (u n)) C.
Proof. intros H L. apply (is_lim_comp_seq erf u p_infty C H); [|exact L]. exists 0%nat. intros n _. discriminate. Qed.
Lemma lim_up c d : 0 < c -> is_lim_seq (fun n => c * NN n + d * / NN n) p_infty.
Proof.
  intros Hc. apply (is_lim_seq_plus _ _ p_infty 0).
  - replace p_infty with (Rbar_mult c p_infty). + apply (is_lim_seq_scal_l NN c p_infty NN_lim).
    + cbn. destruct (Rle_dec 0 c) as [L|L]; [|lra]. destruct (Rle_lt_or_eq_dec 0 c L); [reflexivity|lra].
  - replace (Finite 0) with (Rbar_mult d 0) by (cbn; f_equal; ring). apply (is_lim_seq_scal_l (fun n => / NN n) d 0 NNi_lim).
  - reflexivity.
Qed.
Lemma base_lim (C a : R) : is_lim erf p_infty C -> 0 < a ->
  is_lim_seq (moment 0 a) (C * exp (- (2 * a))) /\ is_lim_seq (fun n => a * moment_inv a n) (C * exp (- (2 * a))).
Proof.
  intros HC Ha.
  assert (L1 : is_lim_seq (fun n => moment 0 a n + a * moment_inv a n) (exp (- (2 * a)) * (C + C))).
  { apply (is_lim_seq_ext (fun n => exp (- (2 * a)) * (erf (1 * NN n + (- a) * / NN n) + erf (a * NN n + (-1) * / NN n)))).
    - intros n. rewrite base_minus. pose proof (NN_ge n). replace (/ NN n - a / / NN n) with (- (a * NN n + (-1) * / NN n)) by (field; lra). rewrite erf_odd.
      replace (1 * NN n + - a * / NN n) with (NN n - a / NN n) by (field; lra). ring.
    - apply (is_lim_seq_scal_l _ (exp (- (2 * a))) (C + C)). apply (is_lim_seq_plus' _ _ C C); apply erf_seq; try exact HC; apply lim_up; lra. }
  assert (L2 : is_lim_seq (fun n => moment 0 a n - a * moment_inv a n) (exp (2 * a) * (C - C))).
  { apply (is_lim_seq_ext (fun n => exp (2 * a) * (erf (1 * NN n + a * / NN n) - erf (a * NN n + 1 * / NN n)))).
    - intros n. rewrite base_plus. pose proof (NN_ge n). replace (/ NN n + a / / NN n) with (a * NN n + 1 * / NN n) by (field; lra).
      replace (1 * NN n + a * / NN n) with (NN n + a / NN n) by (field; lra). reflexivity.
    - apply (is_lim_seq_scal_l _ (exp (2 * a)) (C - C)). apply (is_lim_seq_minus' _ _ C C); apply erf_seq; try exact HC; apply lim_up; lra. }
  split.
  - apply (is_lim_seq_ext (fun n => / 2 * ((moment 0 a n + a * moment_inv a n) + (moment 0 a n - a * moment_inv a n)))); [intros n; field|].
    replace (C * exp (- (2 * a))) with (/ 2 * (exp (- (2 * a)) * (C + C) + exp (2 * a) * (C - C))) by field.
    apply (is_lim_seq_scal_l _ (/ 2) (exp (- (2 * a)) * (C + C) + exp (2 * a) * (C - C))). now apply is_lim_seq_plus'.
  - apply (is_lim_seq_ext (fun n => / 2 * ((moment 0 a n + a * moment_inv a n) - (moment 0 a n - a * moment_inv a n)))); [intros n; field|].
    replace (C * exp (- (2 * a))) with (/ 2 * (exp (- (2 * a)) * (C + C) - exp (2 * a) * (C - C))) by field.
    apply (is_lim_seq_scal_l _ (/ 2) (exp (- (2 * a)) * (C + C) - exp (2 * a) * (C - C))). now apply is_lim_seq_minus'.
Qed.
Lemma base_zero (C : R) : is_lim erf p_infty C -> is_lim_seq (moment 0 0) C.
Proof.
  intros HC. apply (is_lim_seq_ext (fun n => erf (1 * NN n + 0 * / NN n) - erf (/ NN n))).
  - intros n. replace (moment 0 0 n) with (moment 0 0 n + 0 * moment_inv 0 n) by ring. rewrite base_minus.
    replace (- (2 * 0)) with 0 by ring. rewrite exp_0. unfold Rdiv. rewrite !Rmult_0_l, Rmult_1_l, Rminus_0_r, Rminus_0_r, Rplus_0_r. now rewrite Rmult_1_l.
  - replace (Finite C) with (Finite (C - erf 0)) by (rewrite erf_0; f_equal; ring).
    apply (is_lim_seq_minus' _ _ C (erf 0)); [apply erf_seq; [exact HC|apply lim_up; lra]|].
    apply (is_lim_seq_continuous erf (fun n => / NN n) 0); [|exact NNi_lim].
    apply continuity_pt_filterlim. apply (ex_derive_continuous erf). eexists. apply erf_derive.
Qed.
(** The constants *)
Fixpoint mixc (C : R) (p : nat) : R := match p with O => C | S q => (2 * INR q + 1) / 2 * mixc C q end.
Lemma mixc_pos C p : 0 < C -> 0 < mixc C p.
Proof. intros H. induction p as [|q IH]; [exact H|]. cbn [mixc]. apply Rmult_lt_0_compat; [|exact IH]. pose proof (pos_INR q). lra. Qed.
Lemma moment_lim (C a : R) p : is_lim erf p_infty C -> 0 <= a -> is_lim_seq (moment p a) (mixc C p * matern_half p (2 * a)).
Proof.
  intros HC Ha.
  assert (B0 : is_lim_seq (moment 0 a) (mixc C 0 * matern_half 0 (2 * a))).
  { rewrite half_E, E_0, Rmult_1_l. cbn [mixc]. destruct (Req_dec a 0) as [->|Hn]; [|apply (base_lim C a HC); lra].
    replace (- (2 * 0)) with 0 by ring. rewrite exp_0, Rmult_1_r. now apply base_zero. }
  assert (B1 : is_lim_seq (moment 1 a) (mixc C 1 * matern_half 1 (2 * a))).
  { apply (is_lim_seq_ext (fun n => / 2 * moment 0 a n + a * (a * moment_inv a n) - (NN n ^ 1 * mixand a (NN n) - (/ NN n) ^ 1 * mixand a (/ NN n)) * / 2)).
    { intros n. rewrite moment_one. unfold Rdiv. ring. }
    replace (mixc C 1 * matern_half 1 (2 * a)) with (/ 2 * (mixc C 0 * matern_half 0 (2 * a)) + a * (C * exp (- (2 * a))) - 0 * / 2).
    2: { rewrite !half_E, E_0, E_1. cbn [mixc]. change (INR 0) with 0. field. }
    apply is_lim_seq_minus'; [apply is_lim_seq_plus'|].
    - apply (is_lim_seq_scal_l _ (/ 2) (mixc C 0 * matern_half 0 (2 * a))). exact B0.
    - destruct (Req_dec a 0) as [->|Hn].
      + apply (is_lim_seq_ext (fun _ => 0)); [intros; ring|]. rewrite Rmult_0_l. apply is_lim_seq_const.
      + apply (is_lim_seq_scal_l _ a (C * exp (- (2 * a)))). apply (base_lim C a HC). lra.
    - apply (is_lim_seq_scal_r _ (/ 2) 0). apply part_vanishes. }
  enough (G : is_lim_seq (moment p a) (mixc C p * matern_half p (2 * a)) /\ is_lim_seq (moment (S p) a) (mixc C (S p) * matern_half (S p) (2 * a))) by apply G.
  induction p as [|q [IH1 IH2]]; [split; assumption|]. split; [exact IH2|].
  apply (is_lim_seq_ext (fun n => (2 * INR q + 3) / 2 * moment (S q) a n + a ^ 2 * moment q a n
    - (NN n ^ S (2 * S q) * mixand a (NN n) - (/ NN n) ^ S (2 * S q) * mixand a (/ NN n)) * / 2)).
  { intros n. now rewrite moment_rec. }
  replace (mixc C (S (S q)) * matern_half (S (S q)) (2 * a)) with
    ((2 * INR q + 3) / 2 * (mixc C (S q) * matern_half (S q) (2 * a)) + a ^ 2 * (mixc C q * matern_half q (2 * a)) - 0 * / 2).
  2: { rewrite half_three. cbn [mixc]. rewrite S_INR. pose proof (pos_INR q). field. lra. }
  apply is_lim_seq_minus'; [apply is_lim_seq_plus'|].
  - apply (is_lim_seq_scal_l _ ((2 * INR q + 3) / 2) (mixc C (S q) * matern_half (S q) (2 * a))). exact IH2.
  - apply (is_lim_seq_scal_l _ (a ^ 2) (mixc C q * matern_half q (2 * a))). exact IH1.
  - apply (is_lim_seq_scal_r _ (/ 2) 0). apply part_vanishes.
Qed.
(** The Matérn kernels of half-integer smoothness *)
Lemma matern_psd {I : Type} (s : list I) w p : psd_kernel (fun x y : I -> R => matern_half p (sqrt (sqdist s w x y)) : car RF).
Proof.
  destruct erf_limit as (C & PC & HC). pose proof (mixc_pos C p PC) as Pm.
  apply (psd_ext (fun x y : I -> R => / mixc C p * (mixc C p * matern_half p (2 * (sqrt (sqdist s w x y) / 2))) : car RF)).
  { intros x y. cbn [car RF]. replace (2 * (sqrt (sqdist s w x y) / 2)) with (sqrt (sqdist s w x y)) by field. field. lra. }
  apply (psd_scal (/ mixc C p)); [left; now apply Rinv_0_lt_compat|].
  apply (psd_lim (fun n x y => moment p (sqrt (sqdist s w x y) / 2) n)).
  - intros n. apply psd_RInt; [apply bounds| |].
    + intros u Hu. pose proof (bounds n) as B.
      apply (psd_ext (fun x y : I -> R => (u ^ (2 * p) * exp (- u ^ 2)) * exp (- (/ (4 * u ^ 2)) * sqdist s w x y) : car RF)).
      * intros x y. unfold mixand. cbn [car RF]. rewrite Rmult_assoc, <- exp_plus. f_equal. f_equal.
        assert (Q : (sqrt (sqdist s w x y) / 2) ^ 2 = sqdist s w x y / 4).
        { unfold Rdiv. rewrite Rpow_mult_distr, pow2_sqrt by apply sqdist_nonneg. field. }
        rewrite Q. field. lra.
      * apply psd_scal; [apply Rmult_le_pos; [apply pow_le; lra|left; apply exp_pos]|]. apply gauss_psd. left. apply Rinv_0_lt_compat. nra.
    + intros x y. apply (ex_moment (fun u => u ^ (2 * p))). intros; apply pow_cont.
  - intros x y. apply (moment_lim C); [exact HC|]. pose proof (sqrt_pos (sqdist s w x y)). lra.
Qed.
