(** Products of monomials and exponentials of the coordinates are linearly independent. *)
From Coq Require Import List Reals Lra Lia Bool Arith.
From Coquelicot Require Import Coquelicot.
From Verif Require Import Base TensorSchur PsdBase PsdMatern.
Import ListNotations.
Open Scope R_scope.

Section Lists.
Context {T : Type}.
Lemma sumR_filter (f : T -> R) (b : T -> bool) s : sumR f s = sumR f (filter b s) + sumR f (filter (fun x => negb (b x)) s).
Proof.
  induction s as [|x s IH]; [unfold sumR; cbn; ring|]. rewrite sumR_cons, IH. cbn [filter]. destruct (b x); cbn [negb]; rewrite ?sumR_cons; ring.
Qed.
Lemma filter_length_le (b : T -> bool) s : (length (filter b s) <= length s)%nat.
Proof. induction s as [|x s IH]; cbn; [lia|]. destruct (b x); cbn; lia. Qed.
Lemma filter_length_lt (b : T -> bool) s x : In x s -> b x = false -> (length (filter b s) < length s)%nat.
Proof.
  induction s as [|y s IH]; intros [] Hb.
  - subst y. cbn. rewrite Hb. pose proof (filter_length_le b s). lia.
  - cbn. specialize (IH H Hb). destruct (b y); cbn; lia.
Qed.
Lemma filter_comm (b c : T -> bool) s : filter b (filter c s) = filter c (filter b s).
Proof.
  induction s as [|x s IH]; [reflexivity|]. cbn [filter]. destruct (c x) eqn:C, (b x) eqn:B; cbn [filter]; rewrite ?B, ?C, IH; reflexivity.
Qed.
Lemma filter_same (b : T -> bool) s : (forall x, In x s -> b x = true) -> filter b s = s.
Proof. induction s as [|x s IH]; intros H; [reflexivity|]. cbn. rewrite H by now left. f_equal. apply IH. intros y Hy. apply H. now right. Qed.
(** Summing class by class. *)
Lemma sumR_classes (r : T -> T -> bool) (f : T -> R) s : (forall x, r x x = true) ->
  (forall x y z, r x y = true -> r z x = r z y) ->
  (forall x, In x s -> sumR f (filter (r x) s) = 0) -> sumR f s = 0.
Proof.
  intros Rx Rt. remember (length s) as n eqn:N. revert s N. induction n as [n IH] using lt_wf_ind. intros s N H.
  destruct s as [|x s']; [reflexivity|]. set (s := x :: s') in *. rewrite (sumR_filter f (r x) s), (H x) by now left. rewrite Rplus_0_l.
  assert (Lt : (length (filter (fun y => negb (r x y)) s) < n)%nat).
  { rewrite N. apply (filter_length_lt _ s x); [now left|]. now rewrite Rx. }
  apply (IH _ Lt _ eq_refl). intros y Hy. apply filter_In in Hy as [Hy Ny]. rewrite filter_comm, filter_same; [now apply H|].
  intros z Hz. apply filter_In in Hz as [_ Hz]. rewrite <- (Rt y z x Hz). exact Ny.
Qed.
End Lists.

(** ** One coordinate *)
Section One.
Context {T : Type} (n : T -> nat) (a : T -> R).
Definition same1 (x y : T) : bool := (n x =? n y)%nat && (if Req_EM_T (a x) (a y) then true else false).
Lemma same1_iff x y : same1 x y = true <-> n x = n y /\ a x = a y.
Proof. unfold same1. rewrite andb_true_iff, Nat.eqb_eq. destruct (Req_EM_T (a x) (a y)); intuition congruence. Qed.
Lemma same1_refl x : same1 x x = true.
Proof. now apply same1_iff. Qed.
Lemma same1_trans x y z : same1 x y = true -> same1 z x = same1 z y.
Proof. intros H. apply same1_iff in H as [E F]. unfold same1. now rewrite E, F. Qed.
Definition below (x y : T) : Prop := a x < a y \/ a x = a y /\ (n x <= n y)%nat.
Lemma below_trans x y z : below x y -> below y z -> below x z.
Proof. unfold below. intros [A|[A B]] [C|[C D]]; [left; lra|left; lra|left; lra|right; split; [lra|lia]]. Qed.
Lemma below_total x y : below x y \/ below y x.
Proof.
  unfold below. destruct (Rtotal_order (a x) (a y)) as [A|[A|A]]; [left; now left| |right; now left].
  destruct (Nat.le_ge_cases (n x) (n y)); [left; right; auto|right; right; auto].
Qed.
Lemma below_max s : s <> [] -> exists x, In x s /\ forall y, In y s -> below y x.
Proof.
  induction s as [|x s IH]; [congruence|]. intros _. destruct s as [|y s].
  - exists x. split; [now left|]. intros y [<-|[]]. destruct (below_total x x); assumption.
  - destruct IH as (z & Hz & Mz); [discriminate|]. destruct (below_total x z) as [B|B].
    + exists z. split; [now right|]. intros u [<-|Hu]; [exact B|now apply Mz].
    + exists x. split; [now left|]. intros u [<-|Hu]; [destruct (below_total x x); assumption|]. apply below_trans with z; [now apply Mz|exact B].
Qed.
Definition mono (x : T) (t : R) : R := t ^ n x * exp (a x * t).
Lemma exp_decay d k : 0 < d -> is_lim_seq (fun m => NN m ^ k * exp (- d * NN m)) 0.
Proof.
  intros Hd. set (c := INR (fact (S k)) * / d ^ S k).
  apply (is_lim_seq_le_le (fun _ => 0) _ (fun m => c * / NN m)).
  - intros m. pose proof (NN_ge m) as G. set (N := NN m) in *. assert (P : 0 < d ^ S k) by now apply pow_lt.
    assert (Pk : 0 < N ^ k) by (apply pow_lt; lra). pose proof (exp_pos (- d * N)) as E.
    split; [apply Rmult_le_pos; lra|].
    apply Rmult_le_reg_r with (N * d ^ S k * exp (d * N)); [apply Rmult_lt_0_compat; [apply Rmult_lt_0_compat; lra|apply exp_pos]|].
    replace (N ^ k * exp (- d * N) * (N * d ^ S k * exp (d * N))) with ((d * N) ^ S k * (exp (- d * N) * exp (d * N))) by (rewrite Rpow_mult_distr; cbn [pow]; ring).
    rewrite <- exp_plus. replace (- d * N + d * N) with 0 by ring. rewrite exp_0, Rmult_1_r. unfold c.
    replace (INR (fact (S k)) * / d ^ S k * / N * (N * d ^ S k * exp (d * N))) with (INR (fact (S k)) * exp (d * N)) by (field; lra).
    apply pow_exp. apply Rmult_le_pos; lra.
  - apply is_lim_seq_const.
  - replace (Finite 0) with (Rbar_mult c 0) by (cbn; f_equal; ring). apply (is_lim_seq_scal_l _ c 0). exact NNi_lim.
Qed.
Lemma mono_lower x y : below x y -> same1 y x = false -> is_lim_seq (fun m => mono x (NN m) / mono y (NN m)) 0.
Proof.
  intros B D.
  assert (E : forall m, mono x (NN m) / mono y (NN m) = NN m ^ n x * exp (- (a y - a x) * NN m) * / NN m ^ n y).
  { intros m. pose proof (NN_ge m) as G. unfold mono. assert (0 < NN m ^ n y) by (apply pow_lt; lra). pose proof (exp_pos (a y * NN m)).
    replace (- (a y - a x) * NN m) with (a x * NN m + - (a y * NN m)) by ring. rewrite exp_plus, exp_Ropp. field. lra. }
  apply (is_lim_seq_ext _ _ _ (fun m => eq_sym (E m))). destruct B as [B|[B C]].
  - apply (is_lim_seq_le_le (fun _ => 0) _ (fun m => NN m ^ n x * exp (- (a y - a x) * NN m))); [|apply is_lim_seq_const|apply exp_decay; lra].
    intros m. pose proof (NN_ge m) as G. assert (1 <= NN m ^ n y) by (apply pow_R1_Rle; exact G).
    assert (0 <= NN m ^ n x * exp (- (a y - a x) * NN m)) by (apply Rmult_le_pos; [apply pow_le; lra|left; apply exp_pos]).
    assert (0 < / NN m ^ n y) by (apply Rinv_0_lt_compat; lra). assert (/ NN m ^ n y <= 1) by (rewrite <- Rinv_1; apply Rinv_le_contravar; lra).
    split; [apply Rmult_le_pos; lra|]. nra.
  - assert (n x < n y)%nat.
    { destruct (Nat.eq_dec (n x) (n y)) as [En|]; [|lia]. assert (same1 y x = true) by (apply same1_iff; auto). congruence. }
    apply (is_lim_seq_le_le (fun _ => 0) _ (fun m => / NN m)); [|apply is_lim_seq_const|exact NNi_lim].
    intros m. pose proof (NN_ge m) as G. rewrite B. replace (- (a y - a y) * NN m) with 0 by ring. rewrite exp_0, Rmult_1_r.
    replace (n y) with (n x + S (n y - S (n x)))%nat by lia. rewrite pow_add.
    assert (0 < NN m ^ n x) by (apply pow_lt; lra). assert (Q : NN m <= NN m ^ S (n y - S (n x))).
    { cbn [pow]. assert (1 <= NN m ^ (n y - S (n x))) by (apply pow_R1_Rle; exact G). nra. }
    replace (NN m ^ n x * / (NN m ^ n x * NN m ^ S (n y - S (n x)))) with (/ NN m ^ S (n y - S (n x))) by (field; lra).
    split; [left; apply Rinv_0_lt_compat; lra|apply Rinv_le_contravar; lra].
Qed.
Lemma one_max (c : T -> R) s x : (forall t, sumR (fun y => c y * mono y t) s = 0) -> In x s -> (forall y, In y s -> below y x) ->
  sumR c (filter (same1 x) s) = 0.
Proof.
  intros Z Hx M.
  assert (L : is_lim_seq (fun m => sumR (fun y => c y * (mono y (NN m) / mono x (NN m))) s) (sumR (fun y => c y * (if same1 x y then 1 else 0)) s)).
  { apply (sumR_lim (fun m y => c y * (mono y (NN m) / mono x (NN m)))). intros y Hy.
    apply (is_lim_seq_scal_l _ (c y) (Finite (if same1 x y then 1 else 0))). destruct (same1 x y) eqn:E; [|now apply mono_lower; [apply M|]].
    apply (is_lim_seq_ext (fun _ => 1)); [|apply is_lim_seq_const]. intros m. apply same1_iff in E as [E F]. unfold mono. rewrite E, F.
    pose proof (NN_ge m). assert (0 < NN m ^ n y) by (apply pow_lt; lra). pose proof (exp_pos (a y * NN m)). field. lra. }
  assert (L0 : is_lim_seq (fun m => sumR (fun y => c y * (mono y (NN m) / mono x (NN m))) s) 0).
  { apply (is_lim_seq_ext (fun _ => 0)); [|apply is_lim_seq_const]. intros m. specialize (Z (NN m)).
    rewrite (sumR_ext _ (fun y => c y * mono y (NN m) * / mono x (NN m))) by (intros; unfold Rdiv; ring). rewrite <- sumR_scal_r, Z. ring. }
  apply is_lim_seq_unique in L. apply is_lim_seq_unique in L0. rewrite L0 in L. injection L as L.
  rewrite (sumR_filter _ (same1 x)) in L. rewrite (sumR_ext _ (fun _ => 0) (filter (fun y => negb _) s)) in L.
  2: { intros y Hy. apply filter_In in Hy as [_ Hy]. apply negb_true_iff in Hy. rewrite Hy. ring. }
  rewrite sumR_zero in L. rewrite (sumR_ext _ c) in L; [lra|]. intros y Hy. apply filter_In in Hy as [_ Hy]. rewrite Hy. ring.
Qed.
Lemma one_indep (c : T -> R) s : (forall t, sumR (fun y => c y * mono y t) s = 0) -> forall x, In x s -> sumR c (filter (same1 x) s) = 0.
Proof.
  remember (length s) as k eqn:K. revert s K. induction k as [k IH] using lt_wf_ind. intros s K Z x Hx.
  destruct (below_max s) as (z & Hz & M); [intros ->; destruct Hx|].
  pose proof (one_max c s z Z Hz M) as S0.
  destruct (same1 z x) eqn:E.
  - rewrite (filter_ext (same1 x) (same1 z)); [exact S0|]. intros y. apply same1_iff in E as [E F]. unfold same1. now rewrite E, F.
  - set (s' := filter (fun y => negb (same1 z y)) s). assert (Z' : forall t, sumR (fun y => c y * mono y t) s' = 0).
    { intros t. specialize (Z t). rewrite (sumR_filter _ (same1 z)) in Z.
      rewrite (sumR_ext _ (fun y => c y * mono z t)) in Z.
      - rewrite <- sumR_scal_r, S0, Rmult_0_l, Rplus_0_l in Z. exact Z.
      - intros y Hy. apply filter_In in Hy as [_ Hy]. apply same1_iff in Hy as [A B]. unfold mono. now rewrite A, B. }
    assert (Lt : (length s' < k)%nat) by (rewrite K; apply (filter_length_lt _ s z Hz); now rewrite same1_refl).
    assert (Q : filter (same1 x) s' = filter (same1 x) s).
    { unfold s'. rewrite filter_comm. apply filter_same. intros y Hy. apply filter_In in Hy as [_ Hy]. rewrite <- (same1_trans x y z Hy). now rewrite E. }
    rewrite <- Q. apply (IH _ Lt s' eq_refl Z' x). apply filter_In. split; [exact Hx|]. now rewrite E.
Qed.
End One.

(** ** Several coordinates *)
Section Several.
Context {T I : Type} (Idec : forall i j : I, {i = j} + {i <> j}) (n : T -> I -> nat) (a : T -> I -> R).
Fixpoint mprod (J : list I) (x : T) (z : I -> R) : R := match J with [] => 1 | i :: J => z i ^ n x i * exp (a x i * z i) * mprod J x z end.
Lemma mprod_ext J x z z' : (forall i, In i J -> z i = z' i) -> mprod J x z = mprod J x z'.
Proof. induction J as [|i J IH]; intros H; [reflexivity|]. cbn. rewrite H, IH; [reflexivity| |now left]. intros; apply H; now right. Qed.
Lemma several_indep (J : list I) : NoDup J -> forall (c : T -> R) s (H : T -> R), (forall z, sumR (fun x => c x * mprod J x z) s = 0) ->
  (forall x y, In x s -> In y s -> (forall i, In i J -> n x i = n y i /\ a x i = a y i) -> H x = H y) -> sumR (fun x => c x * H x) s = 0.
Proof.
  induction J as [|i J IH]; intros N c s H Z E.
  - destruct s as [|x s']; [reflexivity|]. set (s := x :: s') in *. rewrite (sumR_ext _ (fun y => c y * 1 * H x)).
    + rewrite <- sumR_scal_r. specialize (Z (fun _ => 0)). cbn [mprod] in Z. rewrite Z. ring.
    + intros y Hy. rewrite (E y x); [ring|exact Hy|now left|intros i []].
  - inversion_clear N as [|? ? Ni NJ]. apply (sumR_classes (same1 (fun x => n x i) (fun x => a x i))).
    + apply same1_refl.
    + intros x y z Hr. now apply same1_trans.
    + intros x Hx. set (s' := filter (same1 (fun x => n x i) (fun x => a x i) x) s). apply (IH NJ c s').
      * intros z. pose proof (one_indep (fun x => n x i) (fun x => a x i) (fun y => c y * mprod J y z) s) as O. apply O; [|exact Hx].
        intros t. rewrite <- (Z (fun j => if Idec j i then t else z j)). apply sumR_ext. intros y _. cbn [mprod]. unfold mono.
        destruct (Idec i i) as [_|C]; [|congruence]. rewrite (mprod_ext J y z (fun j => if Idec j i then t else z j)); [ring|].
        intros j Hj. destruct (Idec j i) as [->|]; [contradiction|reflexivity].
      * intros y y' Hy Hy' A. apply filter_In in Hy as [Hy Sy]. apply filter_In in Hy' as [Hy' Sy']. apply same1_iff in Sy, Sy'. apply E; [assumption..|].
        intros j [<-|Hj]; [|now apply A]. split; [destruct Sy, Sy'; congruence|destruct Sy, Sy'; congruence].
Qed.
End Several.
