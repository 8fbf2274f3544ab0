(** Factorisation of partial derivatives. *)
From Coq Require Import List Arith ZArith Bool Lia.
From Verif Require Import Base NdArray DiffopModel DiffopSpec DiffopProofs.
Import ListNotations.

Lemma mi_is_entry a sh g i : mi_is a sh g -> valid_index sh i -> mi_entry a i = g i.
Proof. intros (A & _ & C) H. unfold mi_entry. rewrite A. apply nth_error_nth, C, H. Qed.
Lemma wf_is a : mi_wf a -> mi_is a (mi_shape a) (mi_entry a).
Proof.
  intros W. split; [reflexivity|]. split; [exact W|]. intros i H. unfold mi_entry. apply nth_error_nth'.
  rewrite W. now apply ravel_lt.
Qed.
Lemma is_wf a sh g : mi_is a sh g -> mi_wf a.
Proof. intros (A & B & _). unfold mi_wf. now rewrite A. Qed.

Lemma pick_sum l arr i p : NoDup l -> length l = length arr -> nth_error l p = Some i ->
  list_sum (map (fun '(j, n) => axis j n i) (combine l arr)) = nth p arr 0.
Proof.
  revert arr p. induction l as [|j l IH]; intros [|n arr] p N E H; try discriminate; [destruct p; discriminate|].
  inversion N as [|? ? N1 N2]; subst. injection E as E. cbn [combine map list_sum fold_right].
  assert (Z : ~ In i l -> list_sum (map (fun '(j0, n0) => axis j0 n0 i) (combine l arr)) = 0).
  { clear. intros H. revert arr. induction l as [|k l IH]; intros [|m arr]; try reflexivity. cbn.
    fold (list_sum (map (fun '(j0, n0) => axis j0 n0 i) (combine l arr))). rewrite IH by (intros Hi; apply H; now right).
    unfold axis. destruct (list_eq_dec Nat.eq_dec i k) as [->|]; [exfalso; apply H; now left|reflexivity]. }
  fold (list_sum (map (fun '(j0, n0) => axis j0 n0 i) (combine l arr))).
  destruct p as [|p]; cbn in H |- *.
  - injection H as ->. rewrite Z by exact N1. unfold axis. destruct (list_eq_dec Nat.eq_dec i i); [lia|congruence].
  - rewrite (IH arr p N2 E H). unfold axis. destruct (list_eq_dec Nat.eq_dec i j) as [->|]; [|reflexivity].
    exfalso. apply N1. now apply nth_error_In in H.
Qed.
Lemma pick_index (a : mi) i : mi_wf a -> valid_index (mi_shape a) i ->
  list_sum (map (fun '(j, n) => axis j n i) (combine (all_indices (mi_shape a)) (mi_arr a))) = mi_entry a i.
Proof. intros W V. apply pick_sum; [apply all_nodup|rewrite length_all; symmetry; exact W|now apply nth_all]. Qed.
Lemma combine_entry (a : mi) j n : mi_wf a -> In (j, n) (combine (all_indices (mi_shape a)) (mi_arr a)) ->
  valid_index (mi_shape a) j /\ n = mi_entry a j.
Proof.
  intros W H. split; [now apply all_indices_spec, (in_combine_l _ _ _ _ H)|].
  apply In_nth_error in H as [p H].
  assert (G : forall (l : list index) (arr : list nat) p, nth_error (combine l arr) p = Some (j, n) -> nth_error l p = Some j /\ nth_error arr p = Some n).
  { clear. induction l as [|x l IH]; intros [|y arr] [|p] H; try discriminate; cbn in *; [now injection H as -> ->|now apply IH]. }
  apply G in H as [H1 H2].
  assert (V : valid_index (mi_shape a) j) by (apply all_indices_spec; now apply nth_error_In in H1).
  assert (E : ravel (mi_shape a) j = p).
  { apply (map_nth_error (ravel (mi_shape a))) in H1. rewrite ravel_all in H1.
    assert (p < size (mi_shape a)) by (rewrite <- (seq_length (size (mi_shape a)) 0); apply nth_error_Some; congruence).
    rewrite (nth_error_nth' _ 0) in H1 by (rewrite seq_length; lia). rewrite seq_nth in H1 by lia. injection H1. lia. }
  unfold mi_entry. rewrite E. symmetry. now apply nth_error_nth.
Qed.
Lemma entry_unit sh i n j : valid_index sh j -> mi_entry (unit_mi sh i n) j = axis i n j.
Proof. intros V. apply (mi_is_entry _ sh); [apply unit_is|exact V]. Qed.

Lemma list_sum_map_app {A} (g : A -> nat) l1 l2 : list_sum (map g (l1 ++ l2)) = list_sum (map g l1) + list_sum (map g l2).
Proof. rewrite map_app. apply list_sum_app. Qed.
Lemma sum_flat_map {A B} (f : A -> list B) (g : B -> nat) (h : A -> nat) l :
  (forall x, In x l -> list_sum (map g (f x)) = h x) -> list_sum (map g (flat_map f l)) = list_sum (map h l).
Proof.
  induction l as [|x l IH]; intros H; [reflexivity|]. cbn [flat_map]. rewrite list_sum_map_app, IH by (intros; apply H; now right).
  cbn. fold (list_sum (map h l)). rewrite (H x); [reflexivity|now left].
Qed.
Lemma sum_map_ones {A} (l : list A) : list_sum (map (fun _ => 1) l) = length l.
Proof. induction l as [|x l IH]; [reflexivity|]. unfold list_sum in *. cbn in *. now rewrite IH. Qed.
Lemma sum_repeat {A} (g : A -> nat) x n : list_sum (map g (repeat x n)) = n * g x.
Proof. induction n as [|n IH]; [reflexivity|]. unfold list_sum in *. cbn in *. now rewrite IH. Qed.
Lemma sum_combine_snd {A} (l : list A) arr : length l = length arr -> list_sum (map (fun '(_, n) => n) (combine l arr)) = list_sum arr.
Proof. revert arr. induction l as [|x l IH]; intros [|n arr] E; try discriminate; [reflexivity|]. injection E as E. unfold list_sum in *. cbn in *. now rewrite IH. Qed.

Definition ffo_list a := flat_map (fun '(i, n) => repeat (unit_mi (mi_shape a) i 1) n) (combine (all_indices (mi_shape a)) (mi_arr a)).
Definition fdw_list a := flat_map (fun '(i, n) => if 0 <? n then [unit_mi (mi_shape a) i n] else [])
                 (combine (all_indices (mi_shape a)) (mi_arr a)).
Lemma ffo_length a : mi_wf a -> length (ffo_list a) = mi_order a.
Proof.
  intros W. unfold ffo_list, mi_order. rewrite <- (sum_map_ones (flat_map _ _)).
  rewrite (sum_flat_map _ _ (fun '(_, n) => n)).
  - apply sum_combine_snd. rewrite length_all. symmetry. exact W.
  - intros [i n] _. rewrite sum_repeat. lia.
Qed.
Lemma ffo_ok a : mi_wf a -> mi_order a <> 0 ->
  exists fs, factorize_first_order a = Ok fs /\ length fs = mi_order a /\
    (forall b, In b fs -> exists i, valid_index (mi_shape a) i /\ mi_is b (mi_shape a) (axis i 1)) /\
    forall i, valid_index (mi_shape a) i -> list_sum (map (fun b => mi_entry b i) fs) = mi_entry a i.
Proof.
  intros W O. exists (ffo_list a). pose proof (ffo_length a W) as E. split; [|split; [exact E|split]].
  - unfold factorize_first_order. fold (ffo_list a). destruct (ffo_list a); [cbn in E; lia|reflexivity].
  - intros b H. apply in_flat_map in H as [[i n] [H1 H2]]. apply combine_entry in H1 as [V _]; [|exact W].
    exists i. split; [exact V|]. apply repeat_spec in H2. subst. apply unit_is.
  - intros i V. unfold ffo_list. rewrite (sum_flat_map _ _ (fun '(j, n) => axis j n i)); [now apply pick_index|].
    intros [j n] H. rewrite sum_repeat, entry_unit by exact V. unfold axis. destruct (list_eq_dec Nat.eq_dec i j); lia.
Qed.
Lemma order_zero a : mi_wf a -> mi_order a = 0 -> forall j n, In (j, n) (combine (all_indices (mi_shape a)) (mi_arr a)) -> n = 0.
Proof.
  intros W O j n H. apply in_combine_r in H. unfold mi_order in O.
  revert H O. induction (mi_arr a) as [|x l IH]; cbn; [tauto|]. intros [->|H] E; [lia|]. apply IH; [exact H|]. unfold list_sum. lia.
Qed.
Lemma flat_map_nil {A B} (f : A -> list B) l : (forall x, In x l -> f x = []) -> flat_map f l = [].
Proof. induction l as [|x l IH]; intros H; [reflexivity|]. cbn. rewrite H by now left. apply IH. intros; apply H; now right. Qed.
Lemma factor_zero a : mi_wf a -> mi_order a = 0 -> factorize_first_order a = Err IndexError /\ factorize_dimwise a = Err IndexError.
Proof.
  intros W O. unfold factorize_first_order, factorize_dimwise. split; rewrite flat_map_nil; try reflexivity;
    intros [j n] H; rewrite (order_zero a W O j n H); reflexivity.
Qed.
Lemma sum_zero_all l : list_sum l = 0 -> forall n, In n l -> n = 0.
Proof. induction l as [|x l IH]; cbn; [tauto|]. intros E n [->|H]; [lia|]. apply IH; [unfold list_sum; lia|exact H]. Qed.
Lemma fdw_ok a : mi_wf a -> mi_order a <> 0 ->
  exists fs, factorize_dimwise a = Ok fs /\ NoDup fs /\
    (forall b, In b fs <-> exists i, valid_index (mi_shape a) i /\ mi_entry a i <> 0 /\ mi_is b (mi_shape a) (axis i (mi_entry a i))) /\
    forall i, valid_index (mi_shape a) i -> list_sum (map (fun b => mi_entry b i) fs) = mi_entry a i.
Proof.
  intros W O. exists (fdw_list a).
  assert (M : forall b, In b (fdw_list a) <-> exists i, valid_index (mi_shape a) i /\ mi_entry a i <> 0 /\ mi_is b (mi_shape a) (axis i (mi_entry a i))).
  { intros b. unfold fdw_list. rewrite in_flat_map. split.
    - intros [[i n] [H1 H2]]. apply combine_entry in H1 as [V ->]; [|exact W]. exists i.
      destruct (Nat.ltb_spec 0 (mi_entry a i)); [|destruct H2]. destruct H2 as [<-|[]]. split; [exact V|]. split; [lia|apply unit_is].
    - intros (i & V & Hn & Hb). exists (i, mi_entry a i). split.
      + destruct (wf_is a W) as (_ & _ & C). specialize (C i V). pose proof (nth_all _ _ V) as Hi.
        revert C Hi. generalize (ravel (mi_shape a) i) as p, (all_indices (mi_shape a)) as l, (mi_arr a) as arr. generalize (mi_entry a i) as n.
        intros n p. induction p as [|p IH]; intros [|x l] [|y arr]; cbn; try discriminate; intros C Hi.
        * injection C as ->. injection Hi as ->. now left.
        * right. now apply IH.
      + destruct (Nat.ltb_spec 0 (mi_entry a i)); [|lia]. left. apply (mi_is_unique _ _ (mi_shape a) (axis i (mi_entry a i))); [apply unit_is|exact Hb]. }
  split; [|split; [|split; [exact M|]]].
  - unfold factorize_dimwise. fold (fdw_list a). destruct (fdw_list a) eqn:E; [|reflexivity]. exfalso.
    apply O. unfold mi_order. destruct (list_sum (mi_arr a)) eqn:S; [reflexivity|]. exfalso.
    assert (X : exists n, In n (mi_arr a) /\ n <> 0).
    { clear - S. revert n S. induction (mi_arr a) as [|x l IH]; cbn; [discriminate|]. intros k Ek. destruct x as [|x].
      - destruct (IH k Ek) as (m & Hm & ?). exists m. auto.
      - exists (S x). auto. }
    destruct X as (m & Hm & Hm0). apply In_nth_error in Hm as [p Hp].
    assert (Hl : p < size (mi_shape a)) by (rewrite <- W; apply nth_error_Some; congruence).
    destruct (ravel_surj _ _ Hl) as (i & V & <-).
    assert (He : mi_entry a i = m) by (unfold mi_entry; now apply nth_error_nth).
    apply (proj2 (M (unit_mi (mi_shape a) i (mi_entry a i)))). exists i. split; [exact V|]. split; [lia|apply unit_is].
  - unfold fdw_list.
    assert (G : forall l : list (index * nat), NoDup (map fst l) -> (forall j n, In (j, n) l -> valid_index (mi_shape a) j) ->
      NoDup (flat_map (fun '(i, n) => if 0 <? n then [unit_mi (mi_shape a) i n] else []) l)).
    { induction l as [|[j n] l IH]; intros N V; [constructor|]. inversion N as [|? ? N1 N2]; subst. cbn [flat_map].
      assert (IH' := IH N2 (fun j' n' H => V j' n' (or_intror H))).
      destruct (Nat.ltb_spec 0 n); [|exact IH']. cbn [app]. constructor; [|exact IH'].
      intros H'. apply in_flat_map in H' as [[j' n'] [H1 H2]]. destruct (Nat.ltb_spec 0 n'); [|destruct H2].
      destruct H2 as [E|[]]. assert (Vj := V j n (or_introl eq_refl)).
      assert (Ej : mi_entry (unit_mi (mi_shape a) j' n') j = mi_entry (unit_mi (mi_shape a) j n) j) by now rewrite E.
      rewrite !entry_unit in Ej by exact Vj. unfold axis in Ej. destruct (list_eq_dec Nat.eq_dec j j); [|congruence].
      destruct (list_eq_dec Nat.eq_dec j j') as [<-|]; [|lia]. apply N1. now apply (in_map fst) in H1. }
    apply G.
    + assert (C : forall (l : list index) (arr : list nat), length l = length arr -> map fst (combine l arr) = l).
      { induction l as [|x l IHl]; intros [|y arr] E; try discriminate; [reflexivity|]. injection E as E. cbn. now rewrite IHl. }
      rewrite C; [apply all_nodup|]. rewrite length_all. symmetry. exact W.
    + intros j n H. now apply combine_entry in H as [V _].
  - intros i V. unfold fdw_list. rewrite (sum_flat_map _ _ (fun '(j, n) => axis j n i)); [now apply pick_index|].
    intros [j n] _. destruct (Nat.ltb_spec 0 n).
    + cbn [map list_sum fold_right]. rewrite entry_unit by exact V. lia.
    + unfold axis. destruct (list_eq_dec Nat.eq_dec i j); cbn; lia.
Qed.
Lemma get_factor_ok a i : mi_wf a -> valid_index (mi_shape a) i ->
  exists b, get_factor_at_dim a i = Ok b /\ mi_is b [] (fun _ => mi_entry a i).
Proof.
  intros W V. unfold get_factor_at_dim, mi_get. destruct (index_in_spec (mi_shape a) i); [|contradiction].
  cbn [bind]. unfold mk_mi. cbn [existsb]. fold (mi_entry a i). destruct (Z.ltb_spec (Z.of_nat (mi_entry a i)) 0); [lia|].
  eexists. split; [reflexivity|]. split; [reflexivity|]. split; [reflexivity|].
  intros j Hj. apply valid_index_nil in Hj as ->. cbn. now rewrite Nat2Z.id.
Qed.
Lemma get_factor_err a i : ~ valid_index (mi_shape a) i -> get_factor_at_dim a i = Err IndexError.
Proof. intros V. unfold get_factor_at_dim, mi_get. destruct (index_in_spec (mi_shape a) i); [contradiction|reflexivity]. Qed.

(** Multi-indices *)
Lemma mk_mi_ok sh data : length data = size sh -> Forall (fun z => (0 <= z)%Z) data ->
  exists a, mk_mi sh data = Ok a /\ mi_is a sh (fun i => Z.to_nat (nth (ravel sh i) data 0%Z)).
Proof.
  intros E H. unfold mk_mi. destruct (existsb _ data) eqn:X.
  - apply existsb_exists in X as (z & Hz & Lz). rewrite Forall_forall in H. specialize (H z Hz). apply Z.ltb_lt in Lz. lia.
  - eexists. split; [reflexivity|]. split; [reflexivity|]. split; [cbn; now rewrite map_length|].
    intros i V. cbn. rewrite nth_error_map. rewrite (nth_error_nth' _ 0%Z) by (rewrite E; now apply ravel_lt). reflexivity.
Qed.
Lemma mk_mi_err sh data : ~ Forall (fun z => (0 <= z)%Z) data -> mk_mi sh data = Err ValueError.
Proof.
  intros H. unfold mk_mi. destruct (existsb _ data) eqn:X; [reflexivity|]. exfalso. apply H. apply Forall_forall. intros z Hz.
  destruct (Z.le_gt_cases 0 z); [assumption|]. assert (existsb (fun z => (z <? 0)%Z) data = true); [|congruence].
  apply existsb_exists. exists z. split; [exact Hz|]. now apply Z.ltb_lt.
Qed.
Lemma from_index_ok i sh n : valid_index sh i -> exists a, from_index i sh n = Ok a /\ mi_is a sh (axis i n).
Proof.
  intros V. unfold from_index. destruct (index_in_spec sh i); [|contradiction]. eexists. split; [reflexivity|]. apply unit_is.
Qed.
Lemma from_index_err i sh n : ~ valid_index sh i -> from_index i sh n = Err IndexError.
Proof. intros V. unfold from_index. destruct (index_in_spec sh i); [contradiction|reflexivity]. Qed.
Lemma filter_two (l : list nat) : 1 < length (filter (fun n => negb (n =? 0)) l) <->
  exists p q x y, p < q /\ nth_error l p = Some x /\ nth_error l q = Some y /\ x <> 0 /\ y <> 0.
Proof.
  assert (One : forall l, 0 < length (filter (fun n => negb (n =? 0)) l) <-> exists q y, nth_error l q = Some y /\ y <> 0).
  { clear. induction l as [|x l IH]; cbn.
    - split; [lia|]. intros ([|q] & y & H & _); discriminate.
    - destruct (Nat.eqb_spec x 0) as [->|Hx]; cbn.
      + rewrite IH. split; intros (q & y & H & Hy); [exists (S q), y; auto|]. destruct q as [|q]; [cbn in H; congruence|]. exists q, y. auto.
      + split; [intros _; exists 0, x; auto|lia]. }
  induction l as [|x l IH]; cbn.
  - split; [lia|]. intros ([|p] & q & x & y & _ & H & _); discriminate.
  - destruct (Nat.eqb_spec x 0) as [->|Hx]; cbn.
    + rewrite IH. split; intros (p & q & a & b & Hpq & Hp & Hq & Ha & Hb).
      * exists (S p), (S q), a, b. repeat split; auto. lia.
      * destruct p as [|p]; [cbn in Hp; congruence|]. destruct q as [|q]; [lia|]. exists p, q, a, b. repeat split; auto. lia.
    + rewrite <- Nat.succ_lt_mono, One. split.
      * intros (q & y & H & Hy). exists 0, (S q), x, y. repeat split; auto. lia.
      * intros (p & q & a & b & Hpq & Hp & Hq & Ha & Hb). destruct q as [|q]; [lia|]. exists q, b. auto.
Qed.
Lemma mixed_ok a : mi_wf a -> (mi_mixed a = true <->
  exists i j, i <> j /\ valid_index (mi_shape a) i /\ valid_index (mi_shape a) j /\ mi_entry a i <> 0 /\ mi_entry a j <> 0).
Proof.
  intros W. unfold mi_mixed. rewrite Nat.ltb_lt, filter_two. split.
  - intros (p & q & x & y & Hpq & Hp & Hq & Hx & Hy).
    assert (Lp : p < size (mi_shape a)) by (rewrite <- W; apply nth_error_Some; congruence).
    assert (Lq : q < size (mi_shape a)) by (rewrite <- W; apply nth_error_Some; congruence).
    destruct (ravel_surj _ _ Lp) as (i & Vi & <-). destruct (ravel_surj _ _ Lq) as (j & Vj & <-).
    exists i, j. split; [intros ->; lia|]. do 2 (split; [assumption|]). unfold mi_entry.
    rewrite (nth_error_nth _ _ _ Hp), (nth_error_nth _ _ _ Hq). auto.
  - intros (i & j & Hne & Vi & Vj & Hi & Hj). destruct (wf_is a W) as (_ & _ & C).
    pose proof (C i Vi) as Ci. pose proof (C j Vj) as Cj.
    destruct (Nat.lt_total (ravel (mi_shape a) i) (ravel (mi_shape a) j)) as [H|[H|H]].
    + eexists _, _, _, _. split; [exact H|]. eauto.
    + exfalso. apply Hne. now apply (ravel_inj (mi_shape a)).
    + eexists _, _, _, _. split; [exact H|]. eauto.
Qed.

