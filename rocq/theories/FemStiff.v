(** Stiffness integrals of hat functions. *)
From Coq Require Import List Reals Lra Lia Bool Arith ZArith.
From Coquelicot Require Import Coquelicot.
From Verif Require Import Base PiecewiseSpec FemModel FemSpec FemProofs FemIntegral.
Import ListNotations.
Open Scope R_scope.

Lemma Derive_affine_on (f : R -> R) a b c d x : a < x < b -> (forall y, a < y < b -> f y = c * y + d) -> Derive f x = c.
Proof.
  intros Hx H. rewrite (Derive_ext_loc f (fun y => c * y + d)).
  - apply is_derive_unique. auto_derive; [exact I|ring].
  - apply (locally_interval _ x a b); cbn; try lra. intros y Hy1 Hy2. apply H. cbn in *; lra.
Qed.

Lemma hat_affine_left l m r x : l < m -> l < x < m -> hat l m r x = (1 / (m - l)) * x + (- l / (m - l)).
Proof. intros. rewrite hat_left by lra. field. lra. Qed.
Lemma hat_affine_right l m r x : l < m -> m < r -> m < x < r -> hat l m r x = (- (1 / (r - m))) * x + (r / (r - m)).
Proof. intros. rewrite hat_right by lra. field. lra. Qed.

Section Slope.
Variable b : basis.
Hypothesis Hinc : increasing (b_grid b).
Hypothesis Hlen : (3 <= length (b_grid b))%nat.
Local Notation g := (at_ (b_grid b)).
Local Notation nb := (b_len b).

(** Slope of element [j] on the cell (g k, g (k + 1)). *)
Definition slope (j k : nat) : R :=
  if (j =? k)%nat then 1 / (g (k + 1) - g k)
  else if (S j =? k)%nat then - (1 / (g (k + 1) - g k)) else 0.

Lemma Derive_elem j k x : (j < nb)%nat -> (k <= nb)%nat -> dom_lo b <= g k -> g (k + 1) <= dom_hi b ->
  g k < x < g (k + 1) -> Derive (fun y => basis_eval b y j) x = slope j k.
Proof.
  intros Hj Hk D1 D2 Hx.
  assert (Ev : forall y, g k < y < g (k + 1) -> basis_eval b y j = hat (g j) (g (j + 1)) (g (j + 2)) y).
  { intros y Hy. apply (basis_eval_in b Hinc Hlen); [exact Hj|]. intros _. lra. }
  pose proof (g_lt b Hinc Hlen j (j + 1) ltac:(lia)) as H1. pose proof (g_lt b Hinc Hlen (j + 1) (j + 2) ltac:(lia)) as H2.
  unfold slope. destruct (Nat.eqb_spec j k) as [->|E]; [|destruct (Nat.eqb_spec (S j) k) as [<-|E1]].
  - apply (Derive_affine_on _ (g k) (g (k + 1)) _ (- g k / (g (k + 1) - g k))); [exact Hx|].
    intros y Hy. rewrite Ev by exact Hy. now apply hat_affine_left.
  - replace (S j + 1)%nat with (j + 2)%nat in * by lia. replace (S j) with (j + 1)%nat in * by lia.
    apply (Derive_affine_on _ (g (j + 1)) (g (j + 2)) _ (g (j + 2) / (g (j + 2) - g (j + 1)))); [exact Hx|].
    intros y Hy. rewrite Ev by exact Hy. now apply hat_affine_right.
  - apply (Derive_affine_on _ (g k) (g (k + 1)) _ 0); [exact Hx|].
    intros y Hy. rewrite Ev by exact Hy. rewrite hat_out; try assumption; [ring|].
    destruct (lt_dec k j).
    + left. pose proof (g_le b Hinc Hlen (k + 1) j ltac:(lia)). lra.
    + right. pose proof (g_le b Hinc Hlen (j + 2) k ltac:(lia)). lra.
Qed.
End Slope.

Section Stiff.
Variable G : list R.
Hypothesis Ginc : increasing G.
Hypothesis Glen : (3 <= length G)%nat.
Variables test trial : basis.
Hypothesis Htest : basis_init G true = Ok test.
Hypothesis Htrial : basis_init G false = Ok trial.
Local Notation N := (length G).
Local Notation q := (at_ G).
Local Notation h k := (at_ G (S k) - at_ G k).

Lemma q_lt i j : (i < j < N)%nat -> q i < q j.
Proof. intros H. apply Ginc. lia. Qed.

Lemma test_grid : b_grid test = G /\ b_zero test = true /\ b_len test = (N - 2)%nat.
Proof.
  unfold basis_init in Htest. destruct (Nat.ltb_spec N 3); [lia|]. injection Htest as <-. auto.
Qed.
Definition E_ : list R := (at_ G 0 - (at_ G 1 - at_ G 0)) :: G ++ [at_ G (N - 1) + (at_ G (N - 1) - at_ G (N - 2))].
Lemma trial_grid : b_grid trial = E_ /\ b_zero trial = false /\ b_len trial = N.
Proof.
  unfold basis_init in Htrial. destruct (Nat.ltb_spec N 3); [lia|].
  assert (X : trial = mkbasis E_ false) by (injection Htrial as <-; reflexivity). rewrite X. unfold b_len. cbn [b_grid b_zero]. repeat split.
  unfold E_. cbn [length]. rewrite app_length. cbn. lia.
Qed.
Lemma E_at k : (k < N)%nat -> at_ E_ (S k) = q k.
Proof. intros H. unfold at_, E_. cbn [nth]. now rewrite app_nth1. Qed.
Lemma E_0 : at_ E_ 0 = q 0 - (q 1 - q 0).
Proof. reflexivity. Qed.
Lemma E_N : at_ E_ (S N) = q (N - 1) + (q (N - 1) - q (N - 2)).
Proof. unfold at_ at 1, E_. cbn [nth]. rewrite app_nth2, Nat.sub_diag by lia. reflexivity. Qed.
Lemma trial_inc : increasing (b_grid trial) /\ (3 <= length (b_grid trial))%nat.
Proof. destruct (basis_init_spec G false) as (_ & _ & A). destruct (A trial Htrial Ginc) as (_ & A1 & A2 & _). auto. Qed.
Lemma test_inc : increasing (b_grid test) /\ (3 <= length (b_grid test))%nat.
Proof. destruct (basis_init_spec G true) as (_ & _ & A). destruct (A test Htest Ginc) as (_ & A1 & A2 & _). auto. Qed.

Lemma trial_dom : dom_lo trial = q 0 /\ dom_hi trial = q (N - 1).
Proof.
  destruct trial_grid as (e1 & e2 & e3). unfold dom_lo, dom_hi. rewrite e2, e3, e1. split; [now apply E_at; lia|].
  replace N with (S (N - 1)) at 1 by lia. apply E_at. lia.
Qed.
Lemma test_dom : dom_lo test = q 0 /\ dom_hi test = q (N - 1).
Proof.
  destruct test_grid as (e1 & e2 & e3). unfold dom_lo, dom_hi. rewrite e2, e3, e1. split; [reflexivity|]. f_equal. lia.
Qed.

(** Slope of the trial element [j] on the cell [k] of the grid. *)
Definition tslope (j k : nat) : R :=
  if (j =? S k)%nat then 1 / h k else if (j =? k)%nat then - (1 / h k) else 0.

Lemma q_le i j : (i <= j < N)%nat -> q i <= q j.
Proof. intros H. destruct (Nat.eq_dec i j) as [->|]; [lra|]. left. apply q_lt. lia. Qed.

Lemma trial_Derive j k x : (j < N)%nat -> (S k < N)%nat -> q k < x < q (S k) ->
  Derive (fun y => basis_eval trial y j) x = tslope j k.
Proof.
  intros Hj Hk Hx. destruct trial_grid as (e1 & e2 & e3). destruct trial_inc as (i1 & i2). destruct trial_dom as (d1 & d2).
  rewrite (Derive_elem trial i1 i2 j (S k) x).
  - unfold slope, tslope. rewrite e1. replace (S k + 1)%nat with (S (S k)) by lia. rewrite !E_at by lia. reflexivity.
  - lia.
  - lia.
  - rewrite d1, e1, E_at by lia. apply q_le. lia.
  - rewrite d2, e1. replace (S k + 1)%nat with (S (S k)) by lia. rewrite E_at by lia. apply q_le. lia.
  - rewrite e1. replace (S k + 1)%nat with (S (S k)) by lia. rewrite !E_at by lia. exact Hx.
Qed.

Lemma test_Derive i k x : (S (S i) < N)%nat -> (S k < N)%nat -> q k < x < q (S k) ->
  Derive (fun y => basis_eval test y i) x = if (i =? k)%nat then 1 / h k else if (S i =? k)%nat then - (1 / h k) else 0.
Proof.
  intros Hj Hk Hx. destruct test_grid as (e1 & e2 & e3). destruct test_inc as (i1 & i2). destruct test_dom as (d1 & d2).
  rewrite (Derive_elem test i1 i2 i k x).
  - unfold slope. rewrite e1. replace (k + 1)%nat with (S k) by lia. reflexivity.
  - lia.
  - lia.
  - rewrite d1, e1. apply q_le. lia.
  - rewrite d2, e1. apply q_le. lia.
  - rewrite e1. replace (k + 1)%nat with (S k) by lia. exact Hx.
Qed.

Lemma test_Derive_out i x : (S (S i) < N)%nat -> x < q i \/ q (S (S i)) < x ->
  Derive (fun y => basis_eval test y i) x = 0.
Proof.
  intros Hi Hx. destruct test_grid as (e1 & e2 & e3). destruct test_inc as (i1 & i2).
  pose proof (q_lt i (S i) ltac:(lia)). pose proof (q_lt (S i) (S (S i)) ltac:(lia)).
  assert (Z : forall y, y <= q i \/ q (S (S i)) <= y -> basis_eval test y i = 0).
  { intros y Hy. rewrite (basis_eval_in test i1 i2) by (try lia; congruence).
    rewrite e1. replace (i + 1)%nat with (S i) by lia. replace (i + 2)%nat with (S (S i)) by lia. apply hat_out; assumption. }
  destruct Hx as [Hx|Hx].
  - apply (Derive_affine_on _ (x - 1) (q i) 0 0); [lra|]. intros y Hy. rewrite Z by lra. ring.
  - apply (Derive_affine_on _ (q (S (S i))) (x + 1) 0 0); [lra|]. intros y Hy. rewrite Z by lra. ring.
Qed.

Lemma is_RInt_cst (c a e : R) : is_RInt (fun _ => c) a e ((e - a) * c).
Proof. apply (@is_RInt_const R_NormedModule). Qed.

Lemma stiffness_int i j : (S (S i) < N)%nat -> (j < N)%nat ->
  is_RInt (fun x => Derive (fun y => basis_eval test y i) x * Derive (fun y => basis_eval trial y j) x)
    (q 0) (q (N - 1)) (tslope j i - tslope j (S i)).
Proof.
  intros Hi Hj.
  pose proof (q_lt i (S i) ltac:(lia)) as L1. pose proof (q_lt (S i) (S (S i)) ltac:(lia)) as L2.
  apply (is_RInt_restrict _ (q 0) (q i) (q (S (S i))) (q (N - 1))); [apply q_le; lia|lra|apply q_le; lia| |].
  - intros x Hx. rewrite test_Derive_out; [ring|exact Hi|lra].
  - apply (is_RInt_eq _ _ _ (h i * (1 / h i * tslope j i) + h (S i) * (- (1 / h (S i)) * tslope j (S i)))); [field; lra|].
    apply (is_RInt_chasles _ (q i) (q (S i)) (q (S (S i)))).
    + apply (is_RInt_cong (fun _ => 1 / h i * tslope j i)); [lra| |apply is_RInt_cst].
      intros x Hx. rewrite (test_Derive i i x), (trial_Derive j i x) by (lia || lra). now rewrite Nat.eqb_refl.
    + apply (is_RInt_cong (fun _ => - (1 / h (S i)) * tslope j (S i))); [lra| |apply is_RInt_cst].
      intros x Hx. rewrite (test_Derive i (S i) x), (trial_Derive j (S i) x) by (lia || lra).
      rewrite Nat.eqb_refl. destruct (Nat.eqb_spec i (S i)); [lia|]. reflexivity.
Qed.

Lemma list_Reqb_refl l : list_Reqb l l = true.
Proof. induction l as [|x l IH]; [reflexivity|]. cbn. rewrite IH. destruct (Reqb_spec x x); [reflexivity|congruence]. Qed.

(** Entry of the assembled matrix. *)
Definition dn (t : nat) : R := 1 / (at_ E_ (t + 1) - at_ E_ t).
Lemma laplacian_ok : exists K, weak_laplacian test trial = Ok K /\
  forall i j, K i j = if (j =? i)%nat then dn i else if (j =? S i)%nat then - dn i - dn (S i)
                     else if (j =? S (S i))%nat then dn (S i) else 0.
Proof.
  destruct test_grid as (e1 & e2 & e3). destruct trial_grid as (f1 & f2 & f3).
  unfold weak_laplacian. rewrite e1, e2, e3, f1, f2, f3. cbn [negb].
  replace (N =? N - 2 + 2)%nat with true by (symmetry; apply Nat.eqb_eq; lia).
  replace (slice E_ 1 (length E_ - 1)) with G.
  2:{ unfold slice, E_. cbn [skipn length]. rewrite app_length. cbn [length].
      replace (S (N + 1) - 1 - 1)%nat with N by lia. rewrite firstn_app, Nat.sub_diag, firstn_all. cbn. now rewrite app_nil_r. }
  rewrite list_Reqb_refl. cbn [andb]. eexists. split; [reflexivity|].
  intros i j. unfold diags_entry. cbn [fold_right].
  destruct (Nat.eqb_spec j i) as [->|H0]; [|destruct (Nat.eqb_spec j (S i)) as [->|H1]; [|destruct (Nat.eqb_spec j (S (S i))) as [->|H2]]].
  - rewrite Z.sub_diag, Nat.min_id. cbn [Z.eqb]. unfold dn. ring.
  - destruct (Z.eqb_spec (Z.of_nat (S i) - Z.of_nat i) 0); [lia|].
    destruct (Z.eqb_spec (Z.of_nat (S i) - Z.of_nat i) 1); [|lia].
    destruct (Z.eqb_spec (Z.of_nat (S i) - Z.of_nat i) 2); [lia|].
    rewrite Nat.min_l by lia. unfold dn. replace (i + 1)%nat with (S i) by lia. ring.
  - destruct (Z.eqb_spec (Z.of_nat (S (S i)) - Z.of_nat i) 0); [lia|].
    destruct (Z.eqb_spec (Z.of_nat (S (S i)) - Z.of_nat i) 1); [lia|].
    destruct (Z.eqb_spec (Z.of_nat (S (S i)) - Z.of_nat i) 2); [|lia].
    rewrite Nat.min_l by lia. unfold dn. replace (i + 1)%nat with (S i) by lia. ring.
  - destruct (Z.eqb_spec (Z.of_nat j - Z.of_nat i) 0); [lia|].
    destruct (Z.eqb_spec (Z.of_nat j - Z.of_nat i) 1); [lia|].
    destruct (Z.eqb_spec (Z.of_nat j - Z.of_nat i) 2); [lia|]. ring.
Qed.
Lemma dn_0 : dn 0 = 1 / h 0.
Proof. unfold dn. cbn [Nat.add]. rewrite E_at, E_0 by lia. f_equal. ring. Qed.
Lemma dn_S t : (S t < N)%nat -> dn (S t) = 1 / h t.
Proof. intros H. unfold dn. replace (S t + 1)%nat with (S (S t)) by lia. rewrite !E_at by lia. reflexivity. Qed.

Lemma h_pos k : (S k < N)%nat -> 0 < h k.
Proof. intros H. pose proof (q_lt k (S k) ltac:(lia)). lra. Qed.

(** The matrix is the negated stiffness matrix exactly on uniform grids. *)
Lemma laplacian_iff K : weak_laplacian test trial = Ok K ->
  ((forall i j, (i < b_len test)%nat -> (j < b_len trial)%nat ->
    is_RInt (fun x => Derive (fun y => basis_eval test y i) x * Derive (fun y => basis_eval trial y j) x)
      (q 0) (q (N - 1)) (- K i j))
   <-> uniform G (h 0)).
Proof.
  intros HK. destruct laplacian_ok as [K' [HK' Hent]]. assert (K' = K) by congruence. subst K'.
  destruct test_grid as (_ & _ & e3). destruct trial_grid as (_ & _ & f3). rewrite e3, f3. split.
  - intros H.
    assert (Step : forall i, (S (S i) < N)%nat -> h (S i) = h i).
    { intros i Hi. specialize (H i (S (S i)) ltac:(lia) ltac:(lia)).
      apply (@is_RInt_unique R_CompleteNormedModule) in H.
      pose proof (stiffness_int i (S (S i)) Hi Hi) as H'. apply (@is_RInt_unique R_CompleteNormedModule) in H'.
      rewrite H in H'. rewrite Hent in H'. unfold tslope in H'.
      destruct (Nat.eqb_spec (S (S i)) i); [lia|]. destruct (Nat.eqb_spec (S (S i)) (S i)); [lia|].
      rewrite Nat.eqb_refl in H'. rewrite dn_S in H' by lia.
      pose proof (h_pos i ltac:(lia)) as P1. pose proof (h_pos (S i) ltac:(lia)) as P2.
      assert (E : 1 / h i = 1 / h (S i)) by lra.
      apply (f_equal (fun z => z * h i * h (S i))) in E. field_simplify in E; lra. }
    intros i Hi. induction i as [|i IH]; [reflexivity|].
    transitivity (h i); [apply Step; lia|apply IH; lia].
  - intros U i j Hi Hj. apply (is_RInt_eq _ _ _ _ _) with (2 := stiffness_int i j ltac:(lia) Hj).
    assert (Hh : forall k, (S k < N)%nat -> h k = h 0) by (intros k Hk; apply U; exact Hk).
    assert (Hdn : forall t, (t < N)%nat -> dn t = 1 / h 0).
    { intros [|t] Ht; [apply dn_0|]. rewrite dn_S by lia. now rewrite Hh by lia. }
    rewrite Hent. unfold tslope. rewrite !Hdn by lia. rewrite (Hh i), (Hh (S i)) by lia.
    destruct (Nat.eqb_spec j i), (Nat.eqb_spec j (S i)), (Nat.eqb_spec j (S (S i))); try lia; lra.
Qed.
End Stiff.
