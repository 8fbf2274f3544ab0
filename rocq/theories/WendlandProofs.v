From Coq Require Import List Reals Lra Lia Bool Arith ZArith QArith Qcanon FunctionalExtensionality.
From Coquelicot Require Import Coquelicot.
From Verif Require Import Base PolyModel PolySpec PolyProofs PolyClassModel PolyCalc PolyProps WendlandModel WendlandSpec MaternProofs.
Import ListNotations.
Open Scope R_scope.

Ltac rr := match goal with |- @eq _ ?a ?b => change (@eq R a b) end.

(** * The integration step on real coefficients *)
Definition T (j : nat) (cs : list R) (x : R) : R := x ^ j * RPS (enum_div_from (F := RF) j cs) x.
Lemma T_derive cs : forall j x, is_derive (T (S j) cs) x (x ^ j * RPS cs x).
Proof.
  induction cs as [|c cs IH]; intros j x; unfold T; cbn [enum_div_from].
  - apply is_derive_ext with (fun _ => 0); [intros t; rewrite RPS_nil; symmetry; apply Rmult_0_r|]. rewrite RPS_nil, Rmult_0_r. apply @is_derive_const.
  - apply is_derive_ext with (fun t => c / INR (S j) * t ^ S j + T (S (S j)) cs t).
    { intros t. rewrite RPS_cons. cbn [fdiv RF]. unfold T. rewrite (fnat_R (S j)). change (t ^ S (S j)) with (t * t ^ S j). rr. unfold Rdiv. ring. }
    rewrite RPS_cons. replace (x ^ j * (c + x * RPS cs x)) with (c / INR (S j) * (INR (S j) * x ^ j) + x ^ S j * RPS cs x).
    + apply @is_derive_plus; [|apply IH]. apply (is_derive_scal (fun t => t ^ S j)). 
      replace (INR (S j) * x ^ j) with (INR (S j) * 1 * x ^ Init.Nat.pred (S j)) by (cbn [Init.Nat.pred]; ring).
      apply is_derive_pow. apply @is_derive_id.
    + cbn [pow]. field. apply not_0_INR. lia.
Qed.
Lemma RPS_1 l : RPS l 1 = fsum (F := RF) l.
Proof. induction l as [|c l IH]; [reflexivity|]. rewrite RPS_cons, IH, Rmult_1_l. reflexivity. Qed.
Lemma negdiv_opp j cs : enum_negdiv_from (F := RF) j cs = map Ropp (enum_div_from (F := RF) j cs).
Proof. revert j. induction cs as [|c cs IH]; intros j; [reflexivity|]. cbn [enum_negdiv_from enum_div_from map]. rewrite IH. f_equal. cbn [fdiv fopp RF]. unfold Rdiv. match goal with |- @eq _ ?a ?b => change (@eq R a b) end. ring. Qed.
Lemma RPS_opp l x : RPS (map Ropp l) x = - RPS l x.
Proof. apply (ps_map_opp RF RF_laws). Qed.
Notation rstep := (wendland_step (F := RF)).
Lemma step_eval cs x : RPS (rstep cs) x = T 2 cs 1 - T 2 cs x.
Proof. unfold wendland_step, T. rewrite !RPS_cons, negdiv_opp, RPS_opp, <- RPS_1. cbn [f0 RF]. ring. Qed.
Lemma step_derive cs x : is_derive (RPS (rstep cs)) x (- (x * RPS cs x)).
Proof.
  apply is_derive_ext with (fun t => T 2 cs 1 - T 2 cs t); [intros t; symmetry; apply step_eval|].
  replace (- (x * RPS cs x)) with (0 - x ^ 1 * RPS cs x) by (cbn; ring). apply (is_derive_minus (fun _ => T 2 cs 1)); [apply @is_derive_const|apply T_derive].
Qed.
Lemma step_1 cs : RPS (rstep cs) 1 = 0.
Proof. rewrite step_eval. ring. Qed.
Lemma RPS_cont cs x : continuous (RPS cs) x.
Proof. apply @ex_derive_continuous. eexists. apply is_derive_ps. Qed.
Lemma step_RInt cs r : is_RInt (fun t => t * RPS cs t) r 1 (RPS (rstep cs) r).
Proof.
  rewrite step_eval. apply (is_RInt_derive (T 2 cs)).
  - intros x _. replace (x * RPS cs x) with (x ^ 1 * RPS cs x) by (cbn; ring). apply T_derive.
  - intros x _. apply @continuous_mult; [apply continuous_id|apply RPS_cont].
Qed.

(** * Pascal's triangle *)
Notation C := Binomial.C.
Lemma C_S n k : (k < n)%nat -> C n (S k) = C n k * (INR (n - k) / INR (S k)).
Proof.
  intros H. unfold C. remember (n - S k)%nat as m eqn:Em. replace (n - k)%nat with (S m) by lia.
  rewrite (fact_simpl k), (fact_simpl m), !mult_INR.
  field. split; [|split; [|split]]; try apply INR_fact_neq_0; apply not_0_INR; lia.
Qed.
Fixpoint binom (n k : nat) : nat :=
  match n, k with _, O => 1 | O, S _ => 0 | S n', S k' => binom n' k' + binom n' (S k') end%nat.
Lemma binom_0 n : binom n 0 = 1%nat. Proof. now destruct n. Qed.
Lemma binom_beyond n : forall k, (n < k)%nat -> binom n k = 0%nat.
Proof. induction n as [|n IH]; intros [|k] H; try lia; [reflexivity|]. cbn [binom]. rewrite !IH by lia. reflexivity. Qed.
Lemma binom_C n : forall k, (k <= n)%nat -> C n k = INR (binom n k).
Proof.
  induction n as [|n IH]; intros k H.
  - replace k with 0%nat by lia. unfold C. cbn. field.
  - destruct k as [|k]; [unfold C; rewrite binom_0, Nat.sub_0_r; pose proof (INR_fact_neq_0 (S n)); change (INR (fact 0)) with 1; change (INR 1) with 1; field; assumption|].
    cbn [binom]. rewrite plus_INR. destruct (Nat.eq_dec k n) as [->|].
    + rewrite (binom_beyond n (S n)) by lia. rewrite <- (IH n) by lia. unfold C. rewrite !Nat.sub_diag. pose proof (INR_fact_neq_0 (S n)). pose proof (INR_fact_neq_0 n). change (INR (fact 0)) with 1; change (INR 0) with 0. field. split; assumption.
    + rewrite <- !IH by lia. symmetry. apply pascal. lia.
Qed.
Lemma Qc2R_qz z : Qc2R (qz z) = IZR z. Proof. apply Qc2R_Z. Qed.
Lemma qz_nz k : (k <> 0)%Z -> qz k <> 0%Qc.
Proof. intros H E. apply (f_equal Qc2R) in E. rewrite Qc2R_qz, Qc2R_0 in E. apply eq_IZR in E. lia. Qed.
Lemma pascal_next n k : (k < n)%nat -> (qz (Z.of_nat (binom n k)) * (qz (Z.of_nat n + 1 - Z.of_nat (S k)) / qz (Z.of_nat (S k))))%Qc = qz (Z.of_nat (binom n (S k))).
Proof.
  intros H. apply Qc2R_inj. rewrite Qc2R_mul, Qc2R_div by (apply qz_nz; lia). rewrite !Qc2R_qz, <- !INR_IZR_INZ.
  rewrite <- !binom_C by lia. rewrite C_S by lia. f_equal. f_equal. rewrite INR_IZR_INZ. f_equal. lia.
Qed.
Lemma pascal_from_ok n : forall cnt k, (k + cnt = n)%nat ->
  pascal_from (Z.of_nat n) (S k) cnt (qz (Z.of_nat (binom n k))) = Ok (map (fun j => Z.of_nat (binom n j)) (seq (S k) cnt)).
Proof.
  induction cnt as [|cnt IH]; intros k H; [reflexivity|]. cbn [pascal_from seq map]. rewrite pascal_next by lia.
  assert (Q : this (qz (Z.of_nat (binom n (S k)))) = inject_Z (Z.of_nat (binom n (S k)))).
  { unfold qz, Q2Qc. cbn [this]. unfold inject_Z, Qred. pose proof (Z.ggcd_gcd (Z.of_nat (binom n (S k))) 1). pose proof (Z.ggcd_correct_divisors (Z.of_nat (binom n (S k))) 1) as D.
    destruct (Z.ggcd (Z.of_nat (binom n (S k))) 1) as [g [a b]]. cbn [fst snd] in *. rewrite Z.gcd_1_r in H0. subst g. destruct D as [D1 D2]. rewrite Z.mul_1_l in D1, D2. subst a b. reflexivity. }
  rewrite Q. cbn [Qden inject_Z Qnum]. change (1 =? 1)%positive with true. cbn iota. rewrite IH by lia. reflexivity.
Qed.
Lemma pascal_row_ok n : pascal_row (Z.of_nat n) = Ok (map (fun j => Z.of_nat (binom n j)) (seq 0 (S n))).
Proof.
  unfold pascal_row. rewrite Nat2Z.id. pose proof (pascal_from_ok n n 0 eq_refl) as H. rewrite binom_0 in H. change (Z.of_nat 1) with 1%Z in H. rewrite H.
  cbn [bind seq map]. now rewrite binom_0.
Qed.
Definition row (l : nat) : list Z := map (fun j => Z.of_nat (binom l j)) (seq 0 (S l)).
(** The coefficients of [(1 - r)^l]. *)
Definition base (l : nat) : list R := map IZR (alternate 0 (row l)).
Lemma sum_f_list (f : nat -> R) n : forall x, RPS (map f (seq 0 (S n))) x = sum_f_R0 (fun i => f i * x ^ i) n.
Proof.
  intros x. assert (G : forall n i, @power_sum_from RF i (map f (seq i (S n))) x = sum_f_R0 (fun j => f (i + j)%nat * x ^ (i + j)) n).
  { clear n. induction n as [|n IH]; intros i.
    - cbn [seq map power_sum_from sum_f_R0]. rewrite fpow_R, Nat.add_0_r. cbn [fadd fmul RF f0]. apply Rplus_0_r.
    - change (seq i (S (S n))) with (i :: seq (S i) (S n)). cbn [map power_sum_from]. rewrite IH, fpow_R. rewrite (decomp_sum _ (S n)) by lia.
      cbn [Init.Nat.pred]. rewrite Nat.add_0_r. cbn [fadd fmul RF]. f_equal. apply sum_eq. intros j _. now rewrite Nat.add_succ_r. }
  apply (G n 0%nat).
Qed.
Lemma alternate_nth : forall cs j, map IZR (alternate j cs) = map (fun i => (-1) ^ (j + i) * IZR (nth i cs 0%Z)) (seq 0 (length cs)).
Proof.
  assert (E : forall j, (-1) ^ j = if Nat.even j then 1 else -1).
  { induction j as [|j IH]; [reflexivity|]. cbn [pow]. rewrite IH, Nat.even_succ, <- Nat.negb_even. destruct (Nat.even j); cbn [negb]; ring. }
  induction cs as [|c cs IH]; intros j; [reflexivity|]. cbn [alternate map length seq nth]. f_equal.
  - rewrite Nat.add_0_r, E. destruct (Nat.even j); [ring|]. rewrite opp_IZR. ring.
  - rewrite IH, <- seq_shift, map_map. apply map_ext. intros i. now rewrite Nat.add_succ_r.
Qed.
Lemma base_coeffs l : base l = map (fun i => (-1) ^ i * INR (binom l i)) (seq 0 (S l)).
Proof.
  unfold base. rewrite alternate_nth. unfold row. rewrite map_length, seq_length. apply map_ext_in. intros i Hi. apply in_seq in Hi. cbn [Nat.add].
  f_equal. rewrite (nth_indep _ _ ((fun j => Z.of_nat (binom l j)) 0%nat)) by (rewrite map_length, seq_length; lia). rewrite (map_nth (fun j => Z.of_nat (binom l j))), seq_nth by lia. symmetry. apply INR_IZR_INZ.
Qed.
Lemma base_eval l r : RPS (base l) r = (1 - r) ^ l.
Proof.
  rewrite base_coeffs, sum_f_list. replace (1 - r) with (- r + 1) by ring. rewrite binomial. apply sum_eq. intros i Hi.
  rewrite pow1, Rmult_1_r, binom_C by lia. replace (- r) with (-1 * r) by ring. rewrite Rpow_mult_distr. ring.
Qed.
Lemma base_length l : length (base l) = S l.
Proof. rewrite base_coeffs, map_length, seq_length. reflexivity. Qed.
Lemma base_nth l i : (i <= l)%nat -> nth i (base l) 0 = (-1) ^ i * INR (binom l i).
Proof. intros H. rewrite base_coeffs. rewrite (nth_indep _ _ ((fun i => (-1) ^ i * INR (binom l i)) 0%nat)) by (rewrite map_length, seq_length; lia). rewrite (map_nth (fun i => (-1) ^ i * INR (binom l i))), seq_nth by lia. reflexivity. Qed.
Lemma phi_ok l : exists cs, phi_l_coefficients (Z.of_nat l) = Ok cs /\ map Qc2R cs = base l.
Proof.
  unfold phi_l_coefficients. rewrite pascal_row_ok. cbn [bind]. fold (row l). eexists. split; [reflexivity|].
  unfold base. rewrite m_mkpoly. unfold row at 1. cbn [seq map alternate]. cbn [mkpoly]. unfold row. cbn [seq map alternate]. rewrite map_map.
  rewrite Qc2R_qz. f_equal. apply map_ext. apply Qc2R_qz.
Qed.

(** * The iterated coefficients *)
Definition it (l k : nat) : list R := Nat.iter k rstep (base l).
Lemma it_eval l k r : RPS (it l k) r = wend l k r.
Proof.
  revert r. induction k as [|k IH]; intros r; [apply base_eval|]. change (it l (S k)) with (rstep (it l k)). cbn [wend].
  symmetry. apply is_RInt_unique. apply is_RInt_ext with (fun t => t * RPS (it l k) t); [intros t _; now rewrite IH|]. apply step_RInt.
Qed.
Lemma it_length l k : length (it l k) = (S l + 2 * k)%nat.
Proof.
  assert (L : forall cs j, length (enum_negdiv_from (F := RF) j cs) = length cs) by (induction cs as [|c cs IH]; intros j; [reflexivity|]; cbn [enum_negdiv_from length]; now rewrite IH).
  induction k as [|k IH]; [rewrite Nat.add_0_r; apply base_length|]. change (it l (S k)) with (rstep (it l k)). unfold wendland_step. cbn [length]. rewrite L. change (@length (car RF) (it l k)) with (@length R (it l k)). rewrite IH. lia.
Qed.
Lemma negdiv_nth (cs : list R) : forall j i, @nth R i (enum_negdiv_from (F := RF) j cs) 0 = - @nth R i cs 0 / INR (j + i).
Proof.
  induction cs as [|c cs IH]; intros j [|i]; cbn [enum_negdiv_from nth]; try (rr; unfold Rdiv; ring).
  - cbn [fdiv fopp RF]. rewrite fnat_R, Nat.add_0_r. reflexivity.
  - rewrite IH. replace (S j + i)%nat with (j + S i)%nat by lia. reflexivity.
Qed.
Lemma step_nth (cs : list R) i : @nth R (S (S i)) (rstep cs) 0 = - @nth R i cs 0 / INR (2 + i).
Proof. unfold wendland_step. cbn [nth]. apply negdiv_nth. Qed.
Lemma it_odd l k : forall i, (i < k)%nat -> nth (2 * i + 1) (it l k) 0 = 0.
Proof.
  induction k as [|k IH]; intros i H; [lia|]. change (it l (S k)) with (rstep (it l k)). destruct i as [|i]; [reflexivity|].
  replace (2 * S i + 1)%nat with (S (S (2 * i + 1))) by lia. rewrite step_nth, IH by lia. unfold Rdiv. ring.
Qed.
Lemma it_shift l k : forall i, @nth R (i + 2 * k) (it l k) 0 <> 0 <-> nth i (base l) 0 <> 0.
Proof.
  induction k as [|k IH]; intros i; [now rewrite Nat.add_0_r|]. change (it l (S k)) with (rstep (it l k)). rewrite <- IH.
  replace (i + 2 * S k)%nat with (S (S (i + 2 * k))) by lia. rewrite step_nth.
  assert (N : INR (2 + (i + 2 * k)) <> 0) by (apply not_0_INR; lia). split; intros H E; apply H.
  - rewrite E. unfold Rdiv. ring.
  - unfold Rdiv in E. apply Rmult_integral in E. destruct E as [E|E]; [lra|]. exfalso. revert E. now apply Rinv_neq_0_compat.
Qed.
Lemma it_lead l k : nth (l + 2 * k) (it l k) 0 <> 0.
Proof.
  apply it_shift. rewrite base_nth by lia. apply Rmult_integral_contrapositive_currified; [apply pow_nonzero; lra|].
  assert (B : forall n, binom n n = 1%nat) by (induction n as [|n IH]; [reflexivity|]; cbn [binom]; rewrite IH, binom_beyond by lia; lia). rewrite B. cbn. lra.
Qed.
Lemma it_kink l k : (1 <= l)%nat -> nth (2 * k + 1) (it l k) 0 <> 0.
Proof.
  intros H. rewrite Nat.add_comm. apply it_shift. rewrite base_nth by lia. apply Rmult_integral_contrapositive_currified; [apply pow_nonzero; lra|].
  assert (B : forall n, binom n 1 = n) by (induction n as [|n IH]; [reflexivity|]; cbn [binom]; rewrite IH, binom_0; lia). rewrite B. apply not_0_INR. lia.
Qed.

(** * Positivity *)
Lemma wend_ext l k : wend l k = RPS (it l k).
Proof. extensionality r. symmetry. apply it_eval. Qed.
Lemma wend_cont l k x : continuous (wend l k) x.
Proof. rewrite wend_ext. apply RPS_cont. Qed.
Lemma wend_pos l k : forall r, 0 <= r < 1 -> 0 < wend l k r.
Proof.
  induction k as [|k IH]; intros r H; cbn [wend]; [apply pow_lt; lra|].
  apply RInt_gt_0; [lra| |].
  - intros x Hx. apply Rmult_lt_0_compat; [lra|]. apply IH. lra.
  - intros x _. apply @continuous_mult; [apply continuous_id|apply wend_cont].
Qed.
Lemma wend_derive l k r : is_derive (wend l (S k)) r (- (r * wend l k r)).
Proof. rewrite !wend_ext. change (it l (S k)) with (rstep (it l k)). apply step_derive. Qed.
Lemma wend_1 l k : (1 <= l)%nat -> wend l k 1 = 0.
Proof. intros H. destruct k as [|k]; [cbn [wend]; replace (1 - 1) with 0 by ring; apply pow_i; lia|]. rewrite <- it_eval. apply step_1. Qed.
Lemma wend_decreasing l k a b : (1 <= l)%nat -> 0 <= a -> a < b -> b <= 1 -> wend l k b < wend l k a.
Proof.
  intros Hl A B Hb. destruct k as [|k].
  - cbn [wend]. destruct l as [|l]; [lia|]. clear Hl. assert (G : forall n, (1 - b) ^ S n < (1 - a) ^ S n); [|apply G].
    induction n as [|n IH]; [cbn; lra|]. cbn [pow] in *. assert (0 <= (1 - b) * (1 - b) ^ n) by (apply Rmult_le_pos; [lra|apply pow_le; lra]).
    apply Rle_lt_trans with ((1 - a) * ((1 - b) * (1 - b) ^ n)); [apply Rmult_le_compat_r; lra|apply Rmult_lt_compat_l; lra].
  - assert (P : 0 < RInt (fun t => t * wend l k t) a b).
    { apply RInt_gt_0; [assumption| |].
      - intros x Hx. apply Rmult_lt_0_compat; [lra|]. apply wend_pos. lra.
      - intros x _. apply @continuous_mult; [apply continuous_id|apply wend_cont]. }
    assert (I : forall u v, ex_RInt (fun t => t * wend l k t) u v) by (intros u v; apply @ex_RInt_continuous; intros x _; apply @continuous_mult; [apply continuous_id|apply wend_cont]).
    cbn [wend]. rewrite <- (RInt_Chasles (fun t => t * wend l k t) a b 1) by apply I.
    match goal with |- _ < plus ?x ?y => change (plus x y) with (x + y) end. lra.
Qed.

(** * Derivatives at 1 *)
Fixpoint Dn (n : nat) (cs : list R) : list R := match n with O => cs | S n' => @enum_mul RF 1 (tl (Dn n' cs)) end.
Lemma Derive_n_RPS cs n x : Derive_n (RPS cs) n x = RPS (Dn n cs) x.
Proof.
  revert x. induction n as [|n IH]; intros x; [reflexivity|]. cbn [Derive_n Dn].
  rewrite (Derive_ext _ (RPS (Dn n cs))) by (intros; apply IH). apply is_derive_unique, is_derive_ps.
Qed.
Lemma Dn_derive cs n x : is_derive (RPS (Dn n cs)) x (RPS (Dn (S n) cs) x).
Proof. apply is_derive_ps. Qed.
Lemma Derive_n_mulx n : forall (cs : list R) x,
  Derive_n (fun t => t * RPS cs t) n x = x * RPS (Dn n cs) x + INR n * RPS (Dn (n - 1) cs) x.
Proof.
  induction n as [|n IH]; intros cs x; [cbn [Derive_n Dn INR Nat.sub]; ring|]. cbn [Derive_n].
  rewrite (Derive_ext _ (fun t => t * RPS (Dn n cs) t + INR n * RPS (Dn (n - 1) cs) t)) by (intros; apply IH).
  apply is_derive_unique. 
  assert (M : is_derive (fun t => t * RPS (Dn n cs) t) x (1 * RPS (Dn n cs) x + x * RPS (Dn (S n) cs) x)).
  { apply (is_derive_mult (fun t : R => t) (fun t : R => RPS (Dn n cs) t) x 1 (RPS (Dn (S n) cs) x)); [apply @is_derive_id|apply Dn_derive|exact Rmult_comm]. }
  assert (M2 : is_derive (fun t => INR n * RPS (Dn (n - 1) cs) t) x (INR n * RPS (Dn n cs) x)).
  { destruct n as [|n]; [cbn [INR]; apply is_derive_ext with (fun _ => 0); [intros; symmetry; apply Rmult_0_l|rewrite Rmult_0_l; apply @is_derive_const]|].
    apply is_derive_scal. replace (S n - 1)%nat with n by lia. apply Dn_derive. }
  replace (x * RPS (Dn (S n) cs) x + INR (S n) * RPS (Dn (S n - 1) cs) x)
    with ((1 * RPS (Dn n cs) x + x * RPS (Dn (S n) cs) x) + INR n * RPS (Dn n cs) x).
  - apply @is_derive_plus; assumption.
  - rewrite S_INR. replace (S n - 1)%nat with n by lia. ring.
Qed.
Lemma Derive_n_base l j : (j <= l)%nat -> exists c, forall r, Derive_n (fun r => (1 - r) ^ l) j r = c * (1 - r) ^ (l - j).
Proof.
  induction j as [|j IH]; intros H; [exists 1; intros s; rewrite Nat.sub_0_r; cbn; ring|]. destruct (IH ltac:(lia)) as (c & E). exists (- c * INR (l - j)). intros s. cbn [Derive_n].
  rewrite (Derive_ext _ (fun r => c * (1 - r) ^ (l - j))) by exact E. apply is_derive_unique.
  replace (- c * INR (l - j) * (1 - s) ^ (l - S j)) with (c * (INR (l - j) * -1 * (1 - s) ^ Init.Nat.pred (l - j))) by (replace (Init.Nat.pred (l - j)) with (l - S j)%nat by lia; ring).
  apply is_derive_scal. apply is_derive_pow. auto_derive; auto.
Qed.
Lemma van l k j : (j < l + k)%nat -> RPS (Dn j (it l k)) 1 = 0.
Proof.
  revert j. induction k as [|k IH]; intros j H.
  - rewrite <- Derive_n_RPS. rewrite (Derive_n_ext _ (fun r => (1 - r) ^ l)) by (intros; apply base_eval).
    destruct (Derive_n_base l j ltac:(lia)) as (c & ->). replace (1 - 1) with 0 by ring. rewrite pow_i by lia. ring.
  - destruct j as [|j]; [apply step_1|]. rewrite <- Derive_n_RPS.
    replace (S j) with (j + 1)%nat by lia. rewrite <- Derive_n_comp. change (it l (S k)) with (rstep (it l k)).
    rewrite (Derive_n_ext _ (fun t => - (t * RPS (it l k) t))) by (intros; apply is_derive_unique, step_derive).
    rewrite Derive_n_opp, Derive_n_mulx, (IH j) by lia. destruct j as [|j]; [cbn [INR]; ring|]. rewrite (IH (S j - 1)%nat) by lia. ring.
Qed.
Lemma Dn_nth n : forall (cs : list R) i, @nth R i (Dn n cs) 0 = 0 <-> @nth R (i + n) cs 0 = 0.
Proof.
  assert (M : forall (cs : list R) k i, @nth R i (@enum_mul RF k cs) 0 = @nth R i cs 0 * INR (k + i)).
  { induction cs as [|c cs IH]; intros k [|i]; cbn [enum_mul nth]; try (rr; ring).
    - cbn [fmul RF]. rewrite fnat_R, Nat.add_0_r. reflexivity.
    - rewrite IH. replace (S k + i)%nat with (k + S i)%nat by lia. reflexivity. }
  induction n as [|n IH]; intros cs i; [now rewrite Nat.add_0_r|]. cbn [Dn]. rewrite M. rewrite <- Nat.add_succ_comm, <- IH.
  assert (X : nth i (tl (Dn n cs)) 0 = nth (S i) (Dn n cs) 0) by (destruct (Dn n cs); [now destruct i|reflexivity]). rewrite X. split; intros H.
  - apply Rmult_integral in H. destruct H as [H|H]; [exact H|]. apply INR_eq with (m := 0%nat) in H. lia.
  - rewrite H. ring.
Qed.
Lemma RPS_0 cs : RPS cs 0 = nth 0 cs 0.
Proof. destruct cs; [reflexivity|]. rewrite RPS_cons. cbn [nth]. ring. Qed.
Lemma Dn_odd_0 l k i : (i < k)%nat -> RPS (Dn (2 * i + 1) (it l k)) 0 = 0.
Proof. intros H. rewrite RPS_0. apply Dn_nth. rewrite Nat.add_0_l. now apply it_odd. Qed.
