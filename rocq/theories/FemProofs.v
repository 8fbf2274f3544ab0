(** Lemmas about the hat basis. *)
From Coq Require Import List Reals Lra Lia Bool Arith ZArith.
From Coquelicot Require Import Coquelicot.
From Verif Require Import Base PiecewiseSpec FemModel FemSpec.
Import ListNotations.
Open Scope R_scope.

(** ** The extended grid *)
Lemma nth_ext_grid (s : R) (g : list R) e i : nth i (s :: g ++ [e]) 0 =
  if (i =? 0)%nat then s else if (i <=? length g)%nat then nth (i - 1) g 0
  else if (i =? length g + 1)%nat then e else 0.
Proof.
  destruct i as [|i]; [reflexivity|]. change (S i =? 0)%nat with false. cbv iota. cbn [app nth].
  replace (S i - 1)%nat with i by lia.
  destruct (Nat.leb_spec (S i) (length g)).
  - now rewrite app_nth1 by lia.
  - rewrite app_nth2 by lia. destruct (Nat.eqb_spec (S i) (length g + 1)) as [E|E].
    + replace (i - length g)%nat with 0%nat by lia. reflexivity.
    + rewrite nth_overflow; [reflexivity|cbn; lia].
Qed.

Lemma basis_init_spec grid zb :
  (basis_init grid zb = Err ValueError <-> (length grid < 3)%nat) /\
  (forall e, basis_init grid zb = Err e -> e = ValueError) /\
  (forall b, basis_init grid zb = Ok b -> increasing grid ->
     b_zero b = zb /\ increasing (b_grid b) /\ (3 <= length (b_grid b))%nat /\
     (zb = true -> b_grid b = grid) /\
     (zb = false -> length (b_grid b) = (length grid + 2)%nat /\
        forall i, (i < length grid)%nat -> nth (i + 1) (b_grid b) 0 = nth i grid 0)).
Proof.
  unfold basis_init. destruct (Nat.ltb_spec (length grid) 3) as [L|L].
  - repeat split; try discriminate; try tauto. intros e [= <-]. reflexivity.
  - split; [|split].
    + split; [|lia]. destruct zb; discriminate.
    + destruct zb; discriminate.
    + intros b Hb Hinc. destruct zb; injection Hb as <-.
      * split; [reflexivity|]. split; [exact Hinc|]. split; [cbn; lia|]. split; [reflexivity|discriminate].
      * assert (Hlen : forall s e, length (s :: grid ++ [e] : list R) = (length grid + 2)%nat).
        { intros. cbn [length]. rewrite app_length. cbn. lia. }
        split; [reflexivity|]. cbn [b_grid].
        split.
        { intros i j Hij. rewrite Hlen in Hij. rewrite !nth_ext_grid. unfold at_.
          pose proof (Hinc 0%nat 1%nat ltac:(lia)) as H01.
          pose proof (Hinc (length grid - 2)%nat (length grid - 1)%nat ltac:(lia)) as H12.
          destruct (Nat.eqb_spec i 0), (Nat.eqb_spec j 0); try lia;
            destruct (Nat.leb_spec i (length grid)), (Nat.leb_spec j (length grid)); try lia;
            destruct (Nat.eqb_spec i (length grid + 1)), (Nat.eqb_spec j (length grid + 1)); try lia.
          - assert (Hj : nth 0 grid 0 <= nth (j - 1) grid 0).
            { destruct (Nat.eq_dec (j - 1) 0) as [->|]; [lra|]. left. apply Hinc. lia. } lra.
          - assert (nth 0 grid 0 <= nth (length grid - 1) grid 0).
            { left. apply Hinc. lia. } lra.
          - apply Hinc. lia.
          - assert (nth (i - 1) grid 0 <= nth (length grid - 1) grid 0).
            { destruct (Nat.eq_dec (i - 1) (length grid - 1)) as [->|]; [lra|]. left. apply Hinc. lia. } lra. }
        split; [rewrite Hlen; lia|]. split; [discriminate|].
        intros _. split; [apply Hlen|]. intros i Hi. rewrite nth_ext_grid.
        destruct (Nat.eqb_spec (i + 1) 0); [lia|]. destruct (Nat.leb_spec (i + 1) (length grid)); [|lia].
        f_equal. lia.
Qed.

(** ** Hat functions *)
Section Basis.
Variable b : basis.
Hypothesis Hinc : increasing (b_grid b).
Hypothesis Hlen : (3 <= length (b_grid b))%nat.

Let g := at_ (b_grid b).
Let n := b_len b.

Lemma b_len_grid : length (b_grid b) = (n + 2)%nat.
Proof. unfold n, b_len. lia. Qed.

Lemma g_lt i j : (i < j <= n + 1)%nat -> g i < g j.
Proof. intros H. apply Hinc. rewrite b_len_grid. lia. Qed.
Lemma g_le i j : (i <= j <= n + 1)%nat -> g i <= g j.
Proof. intros H. destruct (Nat.eq_dec i j) as [->|]; [lra|]. left. apply g_lt. lia. Qed.

Lemma hat_value_hat i x : (i < n)%nat -> hat_value b i x = hat (g i) (g (i + 1)) (g (i + 2)) x.
Proof.
  intros Hi. unfold hat_value, left_factor, right_factor, x_i, x_im1, x_ip1, hat.
  change (at_ (b_grid b)) with g.
  pose proof (g_lt i (i + 1) ltac:(lia)) as H1. pose proof (g_lt (i + 1) (i + 2) ltac:(lia)) as H2.
  assert (P1 : 0 < / (g (i + 1) - g i)) by (apply Rinv_0_lt_compat; lra).
  assert (P2 : 0 < / (g (i + 2) - g (i + 1))) by (apply Rinv_0_lt_compat; lra).
  destruct (Rltb_spec x (g (i + 1))) as [L|L].
  - destruct (Rle_dec x (g i)) as [L1|L1].
    + apply Rmax_left. unfold Rdiv. rewrite Rmult_1_l.
      apply Ropp_le_cancel. rewrite Ropp_0, <- Ropp_mult_distr_l_reverse. apply Rmult_le_pos; lra.
    + destruct (Rle_dec x (g (i + 1))) as [_|]; [|lra].
      replace ((x - g i) * (1 / (g (i + 1) - g i))) with ((x - g i) / (g (i + 1) - g i)) by (unfold Rdiv; ring).
      apply Rmax_right. apply Rmult_le_pos; lra.
  - destruct (Rle_dec x (g i)); [lra|].
    replace ((g (i + 2) - x) * (1 / (g (i + 2) - g (i + 1)))) with ((g (i + 2) - x) / (g (i + 2) - g (i + 1))) by (unfold Rdiv; ring).
    destruct (Rle_dec x (g (i + 1))) as [L2|L2].
    + assert (x = g (i + 1)) by lra. subst x.
      replace ((g (i + 2) - g (i + 1)) / (g (i + 2) - g (i + 1))) with 1 by (field; lra).
      replace ((g (i + 1) - g i) / (g (i + 1) - g i)) with 1 by (field; lra). apply Rmax_right. lra.
    + destruct (Rle_dec x (g (i + 2))) as [L3|L3].
      * apply Rmax_right. apply Rmult_le_pos; lra.
      * apply Rmax_left. unfold Rdiv.
        apply Ropp_le_cancel. rewrite Ropp_0, <- Ropp_mult_distr_l_reverse. apply Rmult_le_pos; lra.
Qed.

(** The domain [first node, last node] of the basis. *)
Definition dom_lo : R := if b_zero b then g 0 else g 1.
Definition dom_hi : R := if b_zero b then g (n + 1) else g n.

Lemma hat_out l m r x : l < m -> m < r -> x <= l \/ r <= x -> hat l m r x = 0.
Proof.
  intros H1 H2 H. unfold hat. destruct (Rle_dec x l); [reflexivity|].
  destruct (Rle_dec x m); [lra|]. destruct (Rle_dec x r); [|reflexivity].
  assert (x = r) by lra. subst. unfold Rdiv. ring.
Qed.
Lemma hat_left l m r x : l < m -> l <= x <= m -> hat l m r x = (x - l) / (m - l).
Proof.
  intros H1 H. unfold hat. destruct (Rle_dec x l).
  - assert (x = l) by lra. subst. unfold Rdiv. ring.
  - destruct (Rle_dec x m); [reflexivity|lra].
Qed.
Lemma hat_right l m r x : l < m -> m < r -> m <= x <= r -> hat l m r x = (r - x) / (r - m).
Proof.
  intros H1 H2 H. unfold hat. destruct (Rle_dec x l); [lra|].
  destruct (Rle_dec x m).
  - assert (x = m) by lra. subst. field. lra.
  - destruct (Rle_dec x r); [reflexivity|lra].
Qed.
Lemma hat_pos l m r x : l < m -> m < r -> l < x < r -> 0 < hat l m r x.
Proof.
  intros H1 H2 H. destruct (Rle_lt_dec x m).
  - rewrite hat_left by lra. apply Rdiv_lt_0_compat; lra.
  - rewrite hat_right by lra. apply Rdiv_lt_0_compat; lra.
Qed.
Lemma hat_nonneg l m r x : l < m -> m < r -> 0 <= hat l m r x.
Proof.
  intros H1 H2. destruct (Rle_lt_dec x l); [rewrite hat_out; lra|].
  destruct (Rle_lt_dec r x); [rewrite hat_out; lra|]. left. apply hat_pos; lra.
Qed.

(** Value of component [i]: the hat, cut off outside the domain. *)
Lemma basis_eval_in x i : (i < n)%nat -> (b_zero b = false -> dom_lo <= x <= dom_hi) ->
  basis_eval b x i = hat (g i) (g (i + 1)) (g (i + 2)) x.
Proof.
  intros Hi Hx. unfold basis_eval. rewrite hat_value_hat by exact Hi.
  unfold dom_lo, dom_hi in Hx. destruct (b_zero b); [reflexivity|]. specialize (Hx eq_refl).
  change (at_ (b_grid b)) with g. replace (length (b_grid b) - 2)%nat with n by (rewrite b_len_grid; lia).
  destruct (Rltb_spec x (g 1)); [lra|]. destruct (Rltb_spec (g n) x); [lra|]. reflexivity.
Qed.

Lemma basis_eval_out x i : (i < n)%nat -> x < dom_lo \/ dom_hi < x -> basis_eval b x i = 0.
Proof.
  intros Hi Hx. unfold basis_eval. rewrite hat_value_hat by exact Hi.
  pose proof (g_lt i (i + 1) ltac:(lia)) as H1. pose proof (g_lt (i + 1) (i + 2) ltac:(lia)) as H2.
  unfold dom_lo, dom_hi in Hx. destruct (b_zero b).
  - apply hat_out; try assumption. pose proof (g_le 0 i ltac:(lia)). pose proof (g_le (i + 2) (n + 1) ltac:(lia)). lra.
  - change (at_ (b_grid b)) with g. replace (length (b_grid b) - 2)%nat with n by (rewrite b_len_grid; lia).
    destruct (Rltb_spec (g n) x); destruct (Nat.eqb_spec i (b_len b - 1)); cbn [andb]; try reflexivity;
    destruct (Rltb_spec x (g 1)); destruct (Nat.eqb_spec i 0); cbn [andb]; try reflexivity; apply hat_out; try assumption.
    all: fold n in n1 || idtac.
    all: try (pose proof (g_le 1 i ltac:(lia)); lra).
    all: try (assert (g (i + 2) <= g n) by (apply g_le; unfold n in *; lia); lra).
    all: lra.
Qed.

Lemma basis_eval_nonneg x i : (i < n)%nat -> 0 <= basis_eval b x i.
Proof.
  intros Hi. pose proof (g_lt i (i + 1) ltac:(lia)) as H1. pose proof (g_lt (i + 1) (i + 2) ltac:(lia)) as H2.
  destruct (Rlt_dec x dom_lo); [rewrite basis_eval_out by (try assumption; lra); lra|].
  destruct (Rlt_dec dom_hi x); [rewrite basis_eval_out by (try assumption; lra); lra|].
  rewrite basis_eval_in by (try assumption; intros; lra). now apply hat_nonneg.
Qed.

Lemma n_pos : (1 <= n)%nat.
Proof. pose proof b_len_grid. lia. Qed.

Lemma node_in_domain j : (j < n)%nat -> dom_lo <= g (j + 1) <= dom_hi.
Proof.
  intros Hj. unfold dom_lo, dom_hi. destruct (b_zero b); split; apply g_le; lia.
Qed.

Lemma basis_eval_node i j : (i < n)%nat -> (j < n)%nat ->
  basis_eval b (g (j + 1)) i = if (i =? j)%nat then 1 else 0.
Proof.
  intros Hi Hj. rewrite basis_eval_in; [|exact Hi|intros; now apply node_in_domain].
  pose proof (g_lt i (i + 1) ltac:(lia)) as H1. pose proof (g_lt (i + 1) (i + 2) ltac:(lia)) as H2.
  destruct (Nat.eqb_spec i j) as [->|E].
  - rewrite hat_left by lra. field. lra.
  - apply hat_out; try assumption. destruct (lt_dec i j).
    + right. apply g_le. lia. + left. apply g_le. lia.
Qed.

(** ** Supports *)
Definition supp_lo (i : nat) : R := if b_zero b then g i else if (i =? 0)%nat then g 1 else g i.
Definition supp_hi (i : nat) : R := if b_zero b then g (i + 2) else if (i =? n - 1)%nat then g n else g (i + 2).

Lemma py_index_spec m idx i : (i < m)%nat -> idx = Z.of_nat i \/ idx = (Z.of_nat i - Z.of_nat m)%Z -> py_index m idx = Ok i.
Proof.
  intros Hi H. unfold py_index. destruct H as [->| ->].
  - destruct (Z.leb_spec 0 (Z.of_nat i)); [|lia]. destruct (Z.ltb_spec (Z.of_nat i) (Z.of_nat m)); [|lia].
    cbn. now rewrite Nat2Z.id.
  - destruct (Z.leb_spec 0 (Z.of_nat i - Z.of_nat m)); [lia|]. cbn.
    destruct (Z.leb_spec (- Z.of_nat m) (Z.of_nat i - Z.of_nat m)); [|lia].
    destruct (Z.ltb_spec (Z.of_nat i - Z.of_nat m) 0); [|lia]. cbn. f_equal. lia.
Qed.
Lemma py_index_err m idx : (idx < - Z.of_nat m \/ Z.of_nat m <= idx)%Z -> py_index m idx = Err IndexError.
Proof.
  intros H. unfold py_index. destruct (Z.leb_spec 0 idx), (Z.ltb_spec idx (Z.of_nat m)); cbn; try lia;
  destruct (Z.leb_spec (- Z.of_nat m) idx), (Z.ltb_spec idx 0); cbn; try lia; reflexivity.
Qed.

Lemma support_bounds_ok idx i : (i < n)%nat -> idx = Z.of_nat i \/ idx = (Z.of_nat i - Z.of_nat n)%Z ->
  (2 <= n)%nat \/ b_zero b = true -> support_bounds b idx = Ok (supp_lo i, supp_hi i).
Proof.
  intros Hi H Hn2. unfold support_bounds. fold n. rewrite (py_index_spec n idx i Hi H). cbn [bind].
  destruct (Z.leb_spec (- Z.of_nat n) idx); [|lia]. destruct (Z.ltb_spec idx (Z.of_nat n)); [|lia]. cbn [andb negb].
  unfold supp_lo, supp_hi. destruct (b_zero b); [reflexivity|].
  destruct Hn2 as [Hn2|]; [|discriminate].
  unfold x_i, x_im1, x_ip1. change (at_ (b_grid b)) with g.
  destruct (Nat.eqb_spec i 0) as [->|E0].
  - replace ((idx =? 0)%Z || (idx =? - Z.of_nat n)%Z) with true.
    + destruct (Nat.eqb_spec 0 (n - 1)); [lia|]. reflexivity.
    + symmetry. apply orb_true_iff. rewrite !Z.eqb_eq. lia.
  - replace ((idx =? 0)%Z || (idx =? - Z.of_nat n)%Z) with false.
    + destruct (Nat.eqb_spec i (n - 1)) as [->|E1].
      * replace ((idx =? Z.of_nat n - 1)%Z || (idx =? -1)%Z) with true.
        { repeat f_equal. lia. }
        symmetry. apply orb_true_iff. rewrite !Z.eqb_eq. lia.
      * replace ((idx =? Z.of_nat n - 1)%Z || (idx =? -1)%Z) with false; [reflexivity|].
        symmetry. apply orb_false_iff. rewrite !Z.eqb_neq. lia.
    + symmetry. apply orb_false_iff. rewrite !Z.eqb_neq. lia.
Qed.
Lemma support_bounds_err idx : (idx < - Z.of_nat n \/ Z.of_nat n <= idx)%Z -> support_bounds b idx = Err AssertionError.
Proof.
  intros H. unfold support_bounds. fold n.
  destruct (Z.leb_spec (- Z.of_nat n) idx), (Z.ltb_spec idx (Z.of_nat n)); cbn; try lia; reflexivity.
Qed.

Lemma supp_in_domain i : (i < n)%nat -> (2 <= n)%nat \/ b_zero b = true -> dom_lo <= supp_lo i /\ supp_lo i < supp_hi i /\ supp_hi i <= dom_hi.
Proof.
  intros Hi Hn2. unfold dom_lo, dom_hi, supp_lo, supp_hi. destruct (b_zero b).
  - repeat split; try (apply g_le; lia). apply g_lt. lia.
  - destruct Hn2 as [Hn2|]; [|discriminate].
    destruct (Nat.eqb_spec i 0) as [E0|E0]; destruct (Nat.eqb_spec i (n - 1)) as [E1|E1]; try lia;
      repeat split; try (apply g_le; lia); try (apply g_lt; lia); try lra.
Qed.

Lemma support_ok i x : (i < n)%nat -> (2 <= n)%nat \/ b_zero b = true ->
  (basis_eval b x i <> 0 -> supp_lo i <= x <= supp_hi i) /\
  (supp_lo i < x < supp_hi i -> 0 < basis_eval b x i).
Proof.
  intros Hi Hn2. pose proof (g_lt i (i + 1) ltac:(lia)) as H1. pose proof (g_lt (i + 1) (i + 2) ltac:(lia)) as H2.
  destruct (supp_in_domain i Hi Hn2) as (D1 & D2 & D3). split.
  - intros Hne. destruct (Rlt_dec x dom_lo) as [L|L]; [exfalso; apply Hne, basis_eval_out; [exact Hi|lra]|].
    destruct (Rlt_dec dom_hi x) as [L'|L']; [exfalso; apply Hne, basis_eval_out; [exact Hi|lra]|].
    rewrite basis_eval_in in Hne by (try assumption; intros; lra).
    assert (Hin : g i < x < g (i + 2)).
    { destruct (Rle_lt_dec x (g i)); [exfalso; apply Hne, hat_out; lra|].
      destruct (Rle_lt_dec (g (i + 2)) x); [exfalso; apply Hne, hat_out; lra|]. lra. }
    unfold supp_lo, supp_hi, dom_lo, dom_hi in *. destruct (b_zero b); [lra|].
    destruct (Nat.eqb_spec i 0), (Nat.eqb_spec i (n - 1)); lra.
  - intros Hin. rewrite basis_eval_in by (try assumption; intros; lra). apply hat_pos; try assumption.
    unfold supp_lo, supp_hi in Hin. destruct (b_zero b); [lra|].
    destruct Hn2 as [Hn2|]; [|discriminate].
    destruct (Nat.eqb_spec i 0) as [E0|E0]; destruct (Nat.eqb_spec i (n - 1)) as [E1|E1]; try lia.
    + subst i. cbn [Nat.add] in *. lra.
    + assert (Ei : (i + 1 = n)%nat) by lia. rewrite Ei in *. lra.
    + lra.
Qed.

Lemma eval_elem_ok idx i x : (i < n)%nat -> idx = Z.of_nat i \/ idx = (Z.of_nat i - Z.of_nat n)%Z ->
  eval_elem b idx x = Ok (basis_eval b x i).
Proof.
  intros Hi H. unfold eval_elem. fold n. rewrite (py_index_spec n idx i Hi H). cbn [bind]. f_equal.
  destruct (b_zero b) eqn:Ez.
  - unfold basis_eval. rewrite Ez. reflexivity.
  - change (at_ (b_grid b)) with g. replace (length (b_grid b) - 2)%nat with n by (rewrite b_len_grid; lia).
    destruct (Rltb_spec (g n) x) as [L|L].
    + symmetry. apply basis_eval_out; [exact Hi|]. unfold dom_hi, dom_lo. rewrite Ez. lra.
    + destruct (Rltb_spec x (g 1)) as [L'|L'].
      * symmetry. apply basis_eval_out; [exact Hi|]. unfold dom_hi, dom_lo. rewrite Ez. lra.
      * rewrite basis_eval_in, hat_value_hat; try assumption; [reflexivity|].
        unfold dom_hi, dom_lo. rewrite Ez. lra.
Qed.
Lemma eval_elem_err idx x : (idx < - Z.of_nat n \/ Z.of_nat n <= idx)%Z -> eval_elem b idx x = Err IndexError.
Proof. intros H. unfold eval_elem. fold n. now rewrite py_index_err. Qed.

(** ** Sums *)
Lemma sum_upto_S m f : sum_upto (S m) f = sum_upto m f + f m.
Proof.
  unfold sum_upto. rewrite seq_S, map_app, fold_right_app. cbn. clear.
  generalize (map f (seq 0 m)). intros l. rewrite Rplus_0_r. induction l as [|v l IH]; cbn; [ring|].
  rewrite IH. ring.
Qed.
Lemma sum_upto_zero m f : (forall i, (i < m)%nat -> f i = 0) -> sum_upto m f = 0.
Proof. induction m as [|m IH]; intros H; [reflexivity|]. rewrite sum_upto_S, IH, H by (auto; intros; apply H; lia). ring. Qed.
Lemma sum_upto_ext m f f' : (forall i, (i < m)%nat -> f i = f' i) -> sum_upto m f = sum_upto m f'.
Proof. induction m as [|m IH]; intros H; [reflexivity|]. rewrite !sum_upto_S, IH, H by (auto; intros; apply H; lia). reflexivity. Qed.
Lemma sum_upto_one m f k : (k < m)%nat -> (forall i, (i < m)%nat -> i <> k -> f i = 0) -> sum_upto m f = f k.
Proof.
  induction m as [|m IH]; intros Hk H; [lia|]. rewrite sum_upto_S. destruct (Nat.eq_dec k m) as [->|E].
  - rewrite sum_upto_zero by (intros; apply H; lia). ring.
  - rewrite IH by (try lia; intros; apply H; lia). rewrite (H m) by lia. ring.
Qed.
Lemma sum_upto_two m f k : (S k < m)%nat -> (forall i, (i < m)%nat -> i <> k -> i <> S k -> f i = 0) -> sum_upto m f = f k + f (S k).
Proof.
  induction m as [|m IH]; intros Hk H; [lia|]. rewrite sum_upto_S. destruct (Nat.eq_dec (S k) m) as [<-|E].
  - rewrite (sum_upto_one (S k) f k) by (try lia; intros; apply H; lia). ring.
  - rewrite IH by (try lia; intros; apply H; lia). rewrite (H m) by lia. ring.
Qed.

Lemma find_cell lo hi x : (lo < hi)%nat -> g lo <= x <= g hi -> exists k, (lo <= k < hi)%nat /\ g k <= x <= g (S k).
Proof.
  intros Hl [H1 H2]. induction hi as [|hi IH]; [lia|].
  destruct (Rle_lt_dec x (g hi)) as [L|L].
  - destruct (Nat.eq_dec lo hi) as [->|].
    + exists hi. split; [lia|]. lra.
    + destruct IH as [k [Hk Hx]]; [lia|exact L|]. exists k. split; [lia|exact Hx].
  - exists hi. split; [lia|]. lra.
Qed.

Lemma partition_of_unity x : g 1 <= x <= g n -> sum_upto n (basis_eval b x) = 1.
Proof.
  intros Hx. pose proof n_pos as Hn.
  assert (Hd : b_zero b = false -> dom_lo <= x <= dom_hi) by (unfold dom_lo, dom_hi; intros ->; lra).
  destruct (Nat.eq_dec n 1) as [E1|E1].
  - rewrite E1 in *. assert (x = g 1) by lra. subst x. rewrite (sum_upto_one 1 _ 0) by (intros; lia).
    apply (basis_eval_node 0 0); lia.
  - destruct (find_cell 1 n x ltac:(lia) Hx) as [k [Hk Hxk]].
    replace k with (S (k - 1)) in * by lia. set (j := (k - 1)%nat) in *. clearbody j.
    rewrite (sum_upto_two n _ j); [|lia|].
    + rewrite !basis_eval_in by (try assumption; lia).
      replace (j + 1)%nat with (S j) by lia. replace (j + 2)%nat with (S (S j)) by lia.
      replace (S j + 1)%nat with (S (S j)) by lia. replace (S j + 2)%nat with (S (S (S j))) by lia.
      pose proof (g_lt j (S j) ltac:(lia)). pose proof (g_lt (S j) (S (S j)) ltac:(lia)).
      pose proof (g_lt (S (S j)) (S (S (S j))) ltac:(lia)).
      rewrite hat_right by lra. rewrite hat_left by lra. field. lra.
    + intros i Hi N1 N2. rewrite basis_eval_in by (try assumption; lia).
      pose proof (g_lt i (i + 1) ltac:(lia)). pose proof (g_lt (i + 1) (i + 2) ltac:(lia)).
      apply hat_out; try assumption. destruct (lt_dec i j).
      * right. apply Rle_trans with (g (S j)); [apply g_le; lia|lra].
      * left. apply Rle_trans with (g (S (S j))); [lra|apply g_le; lia].
Qed.
End Basis.
