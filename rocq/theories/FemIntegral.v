(** Integrals of products of hat functions. *)
From Coq Require Import List Reals Lra Lia Bool Arith ZArith.
From Coquelicot Require Import Coquelicot.
From Verif Require Import Base PiecewiseSpec FemModel FemSpec FemProofs.
Import ListNotations.
Open Scope R_scope.

Lemma is_RInt_eq (f : R -> R) a b (v w : R) : v = w -> is_RInt f a b v -> is_RInt f a b w.
Proof. intros ->. exact (fun H => H). Qed.

Lemma is_RInt_cong (f h : R -> R) a b (v : R) : a <= b -> (forall x, a < x < b -> h x = f x) ->
  is_RInt f a b v -> is_RInt h a b v.
Proof.
  intros Hab H. apply (@is_RInt_ext R_NormedModule). intros x. rewrite Rmin_left, Rmax_right by exact Hab.
  intros Hx. symmetry. apply H. exact Hx.
Qed.

Lemma is_RInt_chasles (f : R -> R) a b c (v w : R) : is_RInt f a b v -> is_RInt f b c w -> is_RInt f a c (v + w).
Proof. apply (@is_RInt_Chasles R_NormedModule). Qed.

Lemma is_RInt_0 (f : R -> R) a b : a <= b -> (forall x, a < x < b -> f x = 0) -> is_RInt f a b 0.
Proof.
  intros Hab H. apply (is_RInt_cong (fun _ => 0)); [exact Hab|exact H|].
  apply (is_RInt_eq _ _ _ (scal (b - a) 0)); [|apply (@is_RInt_const R_NormedModule)].
  unfold scal. cbn. unfold mult. cbn. ring.
Qed.

Lemma is_RInt_restrict (f : R -> R) a l r b (v : R) : a <= l -> l <= r -> r <= b ->
  (forall x, a < x < l \/ r < x < b -> f x = 0) -> is_RInt f l r v -> is_RInt f a b v.
Proof.
  intros H1 H2 H3 H0 H.
  apply (is_RInt_eq _ _ _ (0 + (v + 0))); [ring|].
  apply (is_RInt_chasles f a l b); [apply is_RInt_0; auto|].
  apply (is_RInt_chasles f l r b); [exact H|apply is_RInt_0; auto].
Qed.

(** Fundamental theorem for a polynomial expression. *)
Lemma is_RInt_antideriv (F f : R -> R) a b (v : R) : (forall x, is_derive F x (f x)) -> (forall x, continuous f x) ->
  v = F b - F a -> is_RInt f a b v.
Proof.
  intros HF Hf ->. apply (@is_RInt_derive R_CompleteNormedModule F f); intros x _; auto.
Qed.

Ltac poly_cont := intros ?x; match goal with |- continuous ?f ?x => apply (ex_derive_continuous f x); auto_derive; auto end.

Lemma int_up2 l m : l < m -> is_RInt (fun x => ((x - l) / (m - l)) * ((x - l) / (m - l))) l m ((m - l) / 3).
Proof.
  intros H. apply (is_RInt_antideriv (fun x => (x - l) ^ 3 / (3 * (m - l) ^ 2))).
  - intros x. auto_derive; [repeat split; try (intros Hc; apply (Rmult_integral_contrapositive_currified 3 ((m-l)^2)) in Hc; [exact Hc|lra|apply pow_nonzero; lra])|].
    field. lra.
  - poly_cont.
  - replace (l - l) with 0 by ring. field. lra.
Qed.
Lemma int_down2 m r : m < r -> is_RInt (fun x => ((r - x) / (r - m)) * ((r - x) / (r - m))) m r ((r - m) / 3).
Proof.
  intros H. apply (is_RInt_antideriv (fun x => - (r - x) ^ 3 / (3 * (r - m) ^ 2))).
  - intros x. auto_derive; [exact I|]. field. lra.
  - poly_cont.
  - replace (r - r) with 0 by ring. field. lra.
Qed.
Lemma int_cross m r : m < r -> is_RInt (fun x => ((r - x) / (r - m)) * ((x - m) / (r - m))) m r ((r - m) / 6).
Proof.
  intros H. apply (is_RInt_antideriv (fun x => ((x - m) ^ 2 / 2 * (r - m) - (x - m) ^ 3 / 3) / (r - m) ^ 2)).
  - intros x. auto_derive; [exact I|]. field. lra.
  - poly_cont.
  - replace (m - m) with 0 by ring. field. lra.
Qed.
Lemma int_up c l m : l < m -> is_RInt (fun x => c * ((x - l) / (m - l))) l m (c / 2 * (m - l)).
Proof.
  intros H. apply (is_RInt_antideriv (fun x => c * ((x - l) ^ 2 / (2 * (m - l))))).
  - intros x. auto_derive; [exact I|]. field. lra.
  - poly_cont.
  - replace (l - l) with 0 by ring. field. lra.
Qed.
Lemma int_down c m r : m < r -> is_RInt (fun x => c * ((r - x) / (r - m))) m r (c / 2 * (r - m)).
Proof.
  intros H. apply (is_RInt_antideriv (fun x => c * (- (r - x) ^ 2 / (2 * (r - m))))).
  - intros x. auto_derive; [exact I|]. field. lra.
  - poly_cont.
  - replace (r - r) with 0 by ring. field. lra.
Qed.

Lemma is_RInt_sum (F : nat -> R -> R) (v : nat -> R) m (a c : R) :
  (forall j, (j < m)%nat -> is_RInt (F j) a c (v j)) ->
  is_RInt (fun x => sum_upto m (fun j => F j x)) a c (sum_upto m v).
Proof.
  induction m as [|m IH]; intros H.
  - apply (is_RInt_eq _ _ _ (scal (c - a) 0)); [unfold scal; cbn; unfold mult; cbn; apply Rmult_0_r|].
    apply (@is_RInt_const R_NormedModule).
  - rewrite sum_upto_S. apply (@is_RInt_ext R_NormedModule (fun x => plus (sum_upto m (fun j => F j x)) (F m x))).
    + intros x _. rewrite sum_upto_S. reflexivity.
    + apply (@is_RInt_plus R_NormedModule); [apply IH; intros; apply H; lia|apply H; lia].
Qed.

Lemma sum_upto_scal m c f : sum_upto m (fun j => c * f j) = c * sum_upto m f.
Proof. induction m as [|m IH]; [unfold sum_upto; cbn; ring|]. rewrite !sum_upto_S, IH. ring. Qed.
Lemma sum_upto_plus m f h : sum_upto m (fun j => f j + h j) = sum_upto m f + sum_upto m h.
Proof. induction m as [|m IH]; [unfold sum_upto; cbn; ring|]. rewrite !sum_upto_S, IH. ring. Qed.

(** ** Matrix entries *)
Section Mass.
Variable b : basis.
Hypothesis Hinc : increasing (b_grid b).
Hypothesis Hlen : (3 <= length (b_grid b))%nat.
Local Notation g := (at_ (b_grid b)).
Local Notation nb := (b_len b).
Hypothesis Hn2 : (2 <= nb)%nat \/ b_zero b = true.
Notation lo := (dom_lo b).
Notation hi := (dom_hi b).
Let g_lt := g_lt b Hinc Hlen.
Let g_le := g_le b Hinc Hlen.

Lemma dom_le : lo <= hi.
Proof.
  unfold dom_lo, dom_hi. fold g nb. pose proof (n_pos b Hlen). fold nb in H.
  destruct (b_zero b); apply g_le; fold nb; lia.
Qed.

(** Generic integral of a function of the hat [i], split at its node. *)
Lemma int_hat_split (F : R -> R -> R) i (v1 v2 : R) : (i < nb)%nat -> (forall x, F x 0 = 0) ->
  (b_zero b = true \/ i <> 0%nat -> is_RInt (fun x => F x ((x - g i) / (g (i + 1) - g i))) (g i) (g (i + 1)) v1) ->
  (b_zero b = true \/ i <> (nb - 1)%nat -> is_RInt (fun x => F x ((g (i + 2) - x) / (g (i + 2) - g (i + 1)))) (g (i + 1)) (g (i + 2)) v2) ->
  is_RInt (fun x => F x (basis_eval b x i)) lo hi
    ((if b_zero b then v1 else if (i =? 0)%nat then 0 else v1) +
     (if b_zero b then v2 else if (i =? nb - 1)%nat then 0 else v2)).
Proof.
  intros Hi F0 Hl Hr.
  pose proof (g_lt i (i + 1) ltac:(fold nb; lia)) as H1. pose proof (g_lt (i + 1) (i + 2) ltac:(fold nb; lia)) as H2.
  destruct (node_in_domain b Hinc Hlen i Hi) as [D1 D2]. fold g in *.
  assert (Ev : forall x, lo < x < hi -> basis_eval b x i = hat (g i) (g (i + 1)) (g (i + 2)) x).
  { intros x Hx. apply (basis_eval_in b Hinc Hlen x i Hi). intros; lra. }
  apply (is_RInt_chasles _ lo (g (i + 1)) hi).
  - assert (E : (b_zero b = true \/ i <> 0%nat) \/ (b_zero b = false /\ i = 0%nat)).
    { destruct (b_zero b); [tauto|]. destruct (Nat.eq_dec i 0); tauto. }
    destruct E as [E|[Ez E0]].
    + assert (L : lo <= g i).
      { unfold dom_lo. fold g. destruct (b_zero b) eqn:Ez; [apply g_le; fold nb; lia|].
        destruct E as [E|E]; [discriminate|]. apply g_le; fold nb; lia. }
      replace (if b_zero b then v1 else if (i =? 0)%nat then 0 else v1) with v1.
      2:{ destruct (b_zero b); [reflexivity|]. destruct E as [E|E]; [discriminate|]. now destruct (Nat.eqb_spec i 0). }
      apply (is_RInt_restrict _ lo (g i) (g (i + 1)) (g (i + 1))); try lra.
      * intros x [Hx|Hx]; [|lra]. rewrite Ev by lra. rewrite hat_out by lra. apply F0.
      * apply (is_RInt_cong (fun x => F x ((x - g i) / (g (i + 1) - g i)))); [lra| |now apply Hl].
        intros x Hx. rewrite Ev by lra. now rewrite hat_left by lra.
    + subst i. rewrite Ez. cbn [Nat.eqb Nat.add] in *.
      apply is_RInt_0; [exact D1|]. intros x Hx. unfold dom_lo in Hx. rewrite Ez in Hx. fold g in Hx. lra.
  - assert (E : (b_zero b = true \/ i <> (nb - 1)%nat) \/ (b_zero b = false /\ i = (nb - 1)%nat)).
    { destruct (b_zero b); [tauto|]. destruct (Nat.eq_dec i (nb - 1)); tauto. }
    destruct E as [E|[Ez E0]].
    + assert (L : g (i + 2) <= hi).
      { unfold dom_hi. fold g nb. destruct (b_zero b) eqn:Ez; [apply g_le; fold nb; lia|].
        destruct E as [E|E]; [discriminate|]. apply g_le; fold nb; lia. }
      replace (if b_zero b then v2 else if (i =? nb - 1)%nat then 0 else v2) with v2.
      2:{ destruct (b_zero b); [reflexivity|]. destruct E as [E|E]; [discriminate|]. now destruct (Nat.eqb_spec i (nb - 1)). }
      apply (is_RInt_restrict _ (g (i + 1)) (g (i + 1)) (g (i + 2)) hi); try lra.
      * intros x [Hx|Hx]; [lra|]. rewrite Ev by lra. rewrite hat_out by lra. apply F0.
      * apply (is_RInt_cong (fun x => F x ((g (i + 2) - x) / (g (i + 2) - g (i + 1))))); [lra| |now apply Hr].
        intros x Hx. rewrite Ev by lra. now rewrite hat_right by lra.
    + rewrite Ez. destruct (Nat.eqb_spec i (nb - 1)); [|congruence].
      assert (Ei : (i + 1 = nb)%nat) by (pose proof (n_pos b Hlen) as P; fold nb in P; lia).
      apply is_RInt_0; [exact D2|]. intros x Hx. unfold dom_hi in Hx. rewrite Ez, Ei in Hx. fold g nb in Hx. lra.
Qed.

Lemma mass_diag_int i : (i < nb)%nat ->
  is_RInt (fun x => basis_eval b x i * basis_eval b x i) lo hi (mass_diag b i).
Proof.
  intros Hi.
  pose proof (g_lt i (i + 1) ltac:(fold nb; lia)) as H1. pose proof (g_lt (i + 1) (i + 2) ltac:(fold nb; lia)) as H2. fold g in *.
  apply (is_RInt_eq _ _ _ ((if b_zero b then (g (i + 1) - g i) / 3 else if (i =? 0)%nat then 0 else (g (i + 1) - g i) / 3) +
     (if b_zero b then (g (i + 2) - g (i + 1)) / 3 else if (i =? nb - 1)%nat then 0 else (g (i + 2) - g (i + 1)) / 3))).
  - unfold mass_diag, x_i, x_im1, x_ip1. fold g nb. destruct (b_zero b); [lra|].
    destruct Hn2 as [Hn2'|]; [|discriminate].
    destruct (Nat.eqb_spec i 0), (Nat.eqb_spec i (nb - 1)); try lia; lra.
  - apply (int_hat_split (fun _ y => y * y)); [exact Hi|intros; ring| |]; intros _.
    + now apply int_up2. + now apply int_down2.
Qed.

Lemma mass_off_int i : (S i < nb)%nat ->
  is_RInt (fun x => basis_eval b x i * basis_eval b x (S i)) lo hi (mass_offdiag b i).
Proof.
  intros Hi. unfold mass_offdiag, x_ip1, x_i. fold g.
  pose proof (g_lt i (i + 1) ltac:(fold nb; lia)) as H1. pose proof (g_lt (i + 1) (i + 2) ltac:(fold nb; lia)) as H2.
  pose proof (g_lt (i + 2) (i + 3) ltac:(fold nb; lia)) as H3.
  destruct (node_in_domain b Hinc Hlen i ltac:(fold nb; lia)) as [D1 D2].
  destruct (node_in_domain b Hinc Hlen (S i) ltac:(fold nb; lia)) as [D3 D4]. fold g in *.
  replace (S i + 1)%nat with (i + 2)%nat in * by lia.
  assert (Ev : forall x j, (j < nb)%nat -> lo < x < hi -> basis_eval b x j = hat (g j) (g (j + 1)) (g (j + 2)) x).
  { intros x j Hj Hx. apply (basis_eval_in b Hinc Hlen x j Hj). intros; lra. }
  apply (is_RInt_restrict _ lo (g (i + 1)) (g (i + 2)) hi); try lra.
  - intros x Hx. rewrite !Ev by (lia || lra). replace (S i + 1)%nat with (i + 2)%nat by lia. replace (S i + 2)%nat with (i + 3)%nat by lia.
    replace (S i) with (i + 1)%nat by lia.
    destruct Hx as [Hx|Hx]; [rewrite (hat_out (g (i + 1))) by lra|rewrite (hat_out (g i)) by lra]; ring.
  - apply (is_RInt_cong (fun x => ((g (i + 2) - x) / (g (i + 2) - g (i + 1))) * ((x - g (i + 1)) / (g (i + 2) - g (i + 1))))).
    + lra.
    + intros x Hx. rewrite !Ev by (lia || lra). replace (S i + 1)%nat with (i + 2)%nat by lia. replace (S i + 2)%nat with (i + 3)%nat by lia.
      replace (S i) with (i + 1)%nat by lia.
      rewrite hat_right by lra. rewrite hat_left by lra. reflexivity.
    + now apply int_cross.
Qed.

Lemma mass_far_int i j : (i < nb)%nat -> (j < nb)%nat -> (S i < j)%nat ->
  is_RInt (fun x => basis_eval b x i * basis_eval b x j) lo hi 0.
Proof.
  intros Hi Hj Hij. apply is_RInt_0; [apply dom_le|]. intros x Hx.
  rewrite !(basis_eval_in b Hinc Hlen) by (try assumption; intros; lra). fold g.
  pose proof (g_lt i (i + 1) ltac:(fold nb; lia)) as H1. pose proof (g_lt (i + 1) (i + 2) ltac:(fold nb; lia)) as H2.
  pose proof (g_lt j (j + 1) ltac:(fold nb; lia)) as H3. pose proof (g_lt (j + 1) (j + 2) ltac:(fold nb; lia)) as H4.
  pose proof (g_le (i + 2) j ltac:(fold nb; lia)) as H5. fold g in *.
  destruct (Rle_lt_dec x (g (i + 2))).
  - rewrite (hat_out (g j)) by lra. ring.
  - rewrite (hat_out (g i)) by lra. ring.
Qed.

Lemma mass_matrix_cases i j : mass_matrix b i j =
  if (i =? j)%nat then mass_diag b i else if (j =? S i)%nat then mass_offdiag b i
  else if (i =? S j)%nat then mass_offdiag b j else 0.
Proof.
  unfold mass_matrix, diags_entry. cbn [fold_right].
  destruct (Nat.eqb_spec i j) as [->|E]; [|destruct (Nat.eqb_spec j (S i)) as [->|E1]; [|destruct (Nat.eqb_spec i (S j)) as [->|E2]]].
  - rewrite Z.sub_diag. cbn. rewrite Nat.min_id. ring.
  - destruct (Z.eqb_spec (Z.of_nat (S i) - Z.of_nat i) (-1)); [lia|].
    destruct (Z.eqb_spec (Z.of_nat (S i) - Z.of_nat i) 0); [lia|].
    destruct (Z.eqb_spec (Z.of_nat (S i) - Z.of_nat i) 1); [|lia].
    rewrite Nat.min_l by lia. ring.
  - destruct (Z.eqb_spec (Z.of_nat j - Z.of_nat (S j)) (-1)); [|lia].
    destruct (Z.eqb_spec (Z.of_nat j - Z.of_nat (S j)) 0); [lia|].
    destruct (Z.eqb_spec (Z.of_nat j - Z.of_nat (S j)) 1); [lia|].
    rewrite Nat.min_r by lia. ring.
  - destruct (Z.eqb_spec (Z.of_nat j - Z.of_nat i) (-1)); [lia|].
    destruct (Z.eqb_spec (Z.of_nat j - Z.of_nat i) 0); [lia|].
    destruct (Z.eqb_spec (Z.of_nat j - Z.of_nat i) 1); [lia|]. ring.
Qed.

Lemma mass_matrix_int i j : (i < nb)%nat -> (j < nb)%nat ->
  is_RInt (fun x => basis_eval b x i * basis_eval b x j) lo hi (mass_matrix b i j).
Proof.
  intros Hi Hj. rewrite mass_matrix_cases.
  assert (C : forall i j v, is_RInt (fun x => basis_eval b x i * basis_eval b x j) lo hi v ->
     is_RInt (fun x => basis_eval b x j * basis_eval b x i) lo hi v).
  { clear. intros i j v. apply (@is_RInt_ext R_NormedModule). intros x _. apply Rmult_comm. }
  destruct (Nat.eqb_spec i j) as [->|E]; [now apply mass_diag_int|].
  destruct (Nat.eqb_spec j (S i)) as [->|E1]; [now apply mass_off_int|].
  destruct (Nat.eqb_spec i (S j)) as [->|E2]; [apply C; now apply mass_off_int|].
  destruct (lt_dec i j); [apply mass_far_int; try assumption; lia|apply C, mass_far_int; try assumption; lia].
Qed.

Lemma constant_rhs_int c i : (i < nb)%nat ->
  is_RInt (fun x => c * basis_eval b x i) lo hi (constant_rhs b c i).
Proof.
  intros Hi.
  pose proof (g_lt i (i + 1) ltac:(fold nb; lia)) as H1. pose proof (g_lt (i + 1) (i + 2) ltac:(fold nb; lia)) as H2. fold g in *.
  apply (is_RInt_eq _ _ _ ((if b_zero b then c / 2 * (g (i + 1) - g i) else if (i =? 0)%nat then 0 else c / 2 * (g (i + 1) - g i)) +
     (if b_zero b then c / 2 * (g (i + 2) - g (i + 1)) else if (i =? nb - 1)%nat then 0 else c / 2 * (g (i + 2) - g (i + 1))))).
  - unfold constant_rhs, x_i, x_im1, x_ip1. fold g nb. destruct (b_zero b); [lra|].
    destruct Hn2 as [Hn2'|]; [|discriminate].
    destruct (Nat.eqb_spec i 0), (Nat.eqb_spec i (nb - 1)); try lia; lra.
  - apply (int_hat_split (fun _ y => c * y)); [exact Hi|intros; ring| |]; intros _.
    + now apply int_up. + now apply int_down.
Qed.

(** Integrals over the support used by the quadrature based projection. *)
Lemma support_int (f : R -> R) i (v : R) : (i < nb)%nat ->
  is_RInt (fun x => basis_eval b x i * f x) (supp_lo b i) (supp_hi b i) v ->
  is_RInt (fun x => basis_eval b x i * f x) lo hi v.
Proof.
  intros Hi H. destruct (supp_in_domain b Hinc Hlen i Hi Hn2) as (D1 & D2 & D3).
  apply (is_RInt_restrict _ lo (supp_lo b i) (supp_hi b i) hi); try lra; [|exact H].
  intros x Hx. destruct (support_ok b Hinc Hlen i x Hi Hn2) as [S1 _].
  destruct (Req_EM_T (basis_eval b x i) 0) as [->|Hne]; [ring|]. specialize (S1 Hne). lra.
Qed.

(** ** Projection of constants *)
Lemma mass_rows c i : b_zero b = false -> (i < nb)%nat ->
  sum_upto nb (fun j => mass_matrix b i j * c) = constant_rhs b c i.
Proof.
  intros Hz Hi.
  assert (A : is_RInt (fun x => sum_upto nb (fun j => c * (basis_eval b x i * basis_eval b x j))) lo hi
                (sum_upto nb (fun j => c * mass_matrix b i j))).
  { apply is_RInt_sum. intros j Hj. apply (@is_RInt_scal R_NormedModule). now apply mass_matrix_int. }
  assert (B : is_RInt (fun x => sum_upto nb (fun j => c * (basis_eval b x i * basis_eval b x j))) lo hi (constant_rhs b c i)).
  { apply (is_RInt_cong (fun x => c * basis_eval b x i)); [apply dom_le| |now apply constant_rhs_int].
    intros x Hx. rewrite sum_upto_scal, sum_upto_scal. unfold nb.
    rewrite (partition_of_unity b Hinc Hlen); [ring|].
    unfold dom_lo, dom_hi in Hx. rewrite Hz in Hx. lra. }
  apply (@is_RInt_unique R_CompleteNormedModule) in A. apply (@is_RInt_unique R_CompleteNormedModule) in B.
  transitivity (sum_upto nb (fun j => c * mass_matrix b i j)); [apply sum_upto_ext; intros; ring|].
  rewrite <- A, <- B. reflexivity.
Qed.

(** Row of the mass matrix applied to a vector. *)
Lemma mass_row_apply w i : (i < nb)%nat ->
  sum_upto nb (fun j => mass_matrix b i j * w j) =
  (if (i =? 0)%nat then 0 else mass_offdiag b (i - 1) * w (i - 1)%nat) + mass_diag b i * w i
  + (if (i =? nb - 1)%nat then 0 else mass_offdiag b i * w (S i)).
Proof.
  intros Hi.
  transitivity (sum_upto nb (fun j => (if (i =? S j)%nat then mass_offdiag b j * w j else 0) +
    ((if (i =? j)%nat then mass_diag b j * w j else 0) + (if (j =? S i)%nat then mass_offdiag b i * w j else 0)))).
  { apply sum_upto_ext. intros j Hj. rewrite mass_matrix_cases.
    destruct (Nat.eqb_spec i j), (Nat.eqb_spec j (S i)), (Nat.eqb_spec i (S j)); subst; try lia; ring. }
  rewrite !sum_upto_plus, <- Rplus_assoc. f_equal; [f_equal|].
  - destruct (Nat.eqb_spec i 0) as [->|E].
    + apply sum_upto_zero. intros j Hj. reflexivity.
    + rewrite (sum_upto_one b Hlen nb _ (i - 1)); [|lia|].
      * destruct (Nat.eqb_spec i (S (i - 1))); [reflexivity|lia].
      * intros j Hj Hne. destruct (Nat.eqb_spec i (S j)); [lia|reflexivity].
  - rewrite (sum_upto_one b Hlen nb _ i); [now rewrite Nat.eqb_refl|exact Hi|].
    intros j Hj Hne. destruct (Nat.eqb_spec i j); [congruence|reflexivity].
  - destruct (Nat.eqb_spec i (nb - 1)) as [E|E].
    + apply sum_upto_zero. intros j Hj. destruct (Nat.eqb_spec j (S i)); [lia|reflexivity].
    + rewrite (sum_upto_one b Hlen nb _ (S i)); [now rewrite Nat.eqb_refl|lia|].
      intros j Hj Hne. destruct (Nat.eqb_spec j (S i)); [congruence|reflexivity].
Qed.

Lemma max_abs (w : nat -> R) m : (0 < m)%nat -> exists i, (i < m)%nat /\ forall j, (j < m)%nat -> Rabs (w j) <= Rabs (w i).
Proof.
  induction m as [|m IH]; intros H; [lia|]. destruct (Nat.eq_dec m 0) as [->|].
  - exists 0%nat. split; [lia|]. intros j Hj. replace j with 0%nat by lia. lra.
  - destruct IH as [i [Hi Hm]]; [lia|]. destruct (Rle_dec (Rabs (w m)) (Rabs (w i))) as [L|L].
    + exists i. split; [lia|]. intros j Hj. destruct (Nat.eq_dec j m) as [->|]; [exact L|]. apply Hm. lia.
    + exists m. split; [lia|]. intros j Hj. destruct (Nat.eq_dec j m) as [->|]; [lra|].
      apply Rle_trans with (Rabs (w i)); [apply Hm; lia|lra].
Qed.

(** The mass matrix is non-singular. *)
Lemma mass_injective w : (forall i, (i < nb)%nat -> sum_upto nb (fun j => mass_matrix b i j * w j) = 0) ->
  forall i, (i < nb)%nat -> w i = 0.
Proof.
  intros H. pose proof (n_pos b Hlen) as Hn. fold nb in Hn.
  destruct (max_abs w nb ltac:(lia)) as [k [Hk Hmax]].
  assert (Wk : w k = 0).
  { destruct (Req_EM_T (w k) 0) as [|Hne]; [assumption|exfalso].
    specialize (H k Hk). rewrite mass_row_apply in H by exact Hk.
    assert (P : 0 < Rabs (w k)) by (now apply Rabs_pos_lt).
    pose proof (g_lt k (k + 1) ltac:(fold nb; lia)) as H1. pose proof (g_lt (k + 1) (k + 2) ltac:(fold nb; lia)) as H2. fold g in *.
    set (hl := g (k + 1) - g k) in *. set (hr := g (k + 2) - g (k + 1)) in *.
    set (A := if (k =? 0)%nat then 0 else mass_offdiag b (k - 1) * w (k - 1)%nat) in *.
    set (C := if (k =? nb - 1)%nat then 0 else mass_offdiag b k * w (S k)) in *.
    assert (BA : Rabs A <= if (k =? 0)%nat then 0 else hl / 6 * Rabs (w k)).
    { unfold A. destruct (Nat.eqb_spec k 0); [rewrite Rabs_R0; lra|].
      unfold mass_offdiag, x_ip1, x_i. fold g. replace (k - 1 + 2)%nat with (k + 1)%nat by lia.
      replace (k - 1 + 1)%nat with k by lia. fold hl. rewrite Rabs_mult, Rabs_pos_eq by (unfold hl; lra).
      apply Rmult_le_compat_l; [unfold hl; lra|]. apply Hmax. lia. }
    assert (BC : Rabs C <= if (k =? nb - 1)%nat then 0 else hr / 6 * Rabs (w k)).
    { unfold C. destruct (Nat.eqb_spec k (nb - 1)); [rewrite Rabs_R0; lra|].
      unfold mass_offdiag, x_ip1, x_i. fold g. fold hr. rewrite Rabs_mult, Rabs_pos_eq by (unfold hr; lra).
      apply Rmult_le_compat_l; [unfold hr; lra|]. apply Hmax. lia. }
    assert (BD : (if (k =? 0)%nat then 0 else hl / 6) + (if (k =? nb - 1)%nat then 0 else hr / 6) < mass_diag b k).
    { unfold mass_diag, x_ip1, x_im1, x_i. fold g nb. destruct (b_zero b).
      - destruct (Nat.eqb_spec k 0), (Nat.eqb_spec k (nb - 1)); unfold hl, hr; lra.
      - destruct Hn2 as [Hn2'|]; [|discriminate].
        destruct (Nat.eqb_spec k 0), (Nat.eqb_spec k (nb - 1)); try lia; unfold hl, hr; lra. }
    assert (E : Rabs (mass_diag b k * w k) <= Rabs A + Rabs C).
    { replace (mass_diag b k * w k) with (- (A + C)) by lra. rewrite Rabs_Ropp. apply Rabs_triang. }
    rewrite Rabs_mult in E.
    assert (Q : mass_diag b k <= Rabs (mass_diag b k)) by apply Rle_abs.
    assert (E2 : mass_diag b k * Rabs (w k) <= Rabs A + Rabs C).
    { apply Rle_trans with (Rabs (mass_diag b k) * Rabs (w k)); [apply Rmult_le_compat_r; lra|exact E]. }
    assert (E3 : ((if (k =? 0)%nat then 0 else hl / 6) + (if (k =? nb - 1)%nat then 0 else hr / 6)) * Rabs (w k) < mass_diag b k * Rabs (w k)).
    { apply Rmult_lt_compat_r; assumption. }
    destruct (k =? 0)%nat, (k =? nb - 1)%nat; lra. }
  intros i Hi. specialize (Hmax i Hi). rewrite Wk, Rabs_R0 in Hmax.
  pose proof (Rabs_pos (w i)). destruct (Req_EM_T (w i) 0) as [|Hne]; [assumption|].
  pose proof (Rabs_pos_lt _ Hne). lra.
Qed.

(** The normalised projection of a constant is the constant vector. *)
Lemma constant_projection c w : b_zero b = false ->
  (forall i, (i < nb)%nat -> sum_upto nb (fun j => mass_matrix b i j * w j) = constant_rhs b c i) <->
  (forall i, (i < nb)%nat -> w i = c).
Proof.
  intros Hz. split.
  - intros H i Hi.
    assert (D : (fun j => w j - c) i = 0); [|lra].
    apply (mass_injective (fun j => w j - c)); [|exact Hi].
    intros k Hk. transitivity (sum_upto nb (fun j => mass_matrix b k j * w j) - sum_upto nb (fun j => mass_matrix b k j * c)).
    + unfold Rminus. rewrite <- (Rmult_1_l (sum_upto nb (fun j => mass_matrix b k j * c))), Ropp_mult_distr_l, <- sum_upto_scal, <- sum_upto_plus.
      apply sum_upto_ext. intros. ring.
    + rewrite H, mass_rows by assumption. ring.
  - intros H i Hi. rewrite <- mass_rows by assumption. apply sum_upto_ext. intros j Hj. now rewrite H.
Qed.
End Mass.
