(** NumPy shapes, multi-indices and broadcasting, by their documented rules. *)
From Coq Require Import List Arith Lia Bool.
From Verif Require Import Base.
Import ListNotations.

Definition shape := list nat.
Definition index := list nat.

(** Multi-indices of an array of a given shape. *)
Definition valid_index (s : shape) (i : index) : Prop := Forall2 lt i s.

Definition size (s : shape) : nat := fold_right Nat.mul 1 s.

Definition shape_eqb (s t : shape) : bool := if list_eq_dec Nat.eq_dec s t then true else false.
Lemma shape_eqb_spec s t : reflect (s = t) (shape_eqb s t).
Proof. unfold shape_eqb. destruct (list_eq_dec Nat.eq_dec s t); constructor; assumption. Qed.
Lemma shape_eqb_refl s : shape_eqb s s = true.
Proof. destruct (shape_eqb_spec s s); congruence. Qed.

(** [np.broadcast_shapes] of two shapes: aligned at the last axis, sizes must
    agree or be 1. *)
Fixpoint broadcast_rev (a b : shape) : result shape :=
  match a, b with
  | [], _ => Ok b
  | _, [] => Ok a
  | x :: a', y :: b' =>
      if x =? y then bind (broadcast_rev a' b') (fun r => Ok (x :: r))
      else if x =? 1 then bind (broadcast_rev a' b') (fun r => Ok (y :: r))
      else if y =? 1 then bind (broadcast_rev a' b') (fun r => Ok (x :: r))
      else Err ValueError
  end.
Definition broadcast_shapes (a b : shape) : result shape :=
  bind (broadcast_rev (rev a) (rev b)) (fun r => Ok (rev r)).

(** Index into an operand of shape [s] for the index [i] of the broadcast
    result. *)
Definition operand_index (s : shape) (i : index) : index :=
  map (fun '(d, k) => if d =? 1 then 0 else k) (combine s (skipn (length i - length s) i)).

Lemma valid_index_length s i : valid_index s i -> length i = length s.
Proof. induction 1; cbn; congruence. Qed.

Lemma operand_index_id s i : valid_index s i -> operand_index s i = i.
Proof.
  intros H. unfold operand_index. rewrite (valid_index_length _ _ H), Nat.sub_diag. cbn [skipn].
  induction H as [|k d i s L H IH]; [reflexivity|]. cbn. rewrite IH.
  destruct (Nat.eqb_spec d 1); f_equal. lia.
Qed.

Lemma broadcast_rev_same s : broadcast_rev s s = Ok s.
Proof. induction s as [|d s IH]; [reflexivity|]. cbn. rewrite Nat.eqb_refl, IH. reflexivity. Qed.
Lemma broadcast_same s : broadcast_shapes s s = Ok s.
Proof. unfold broadcast_shapes. rewrite broadcast_rev_same. cbn. now rewrite rev_involutive. Qed.
Lemma broadcast_scalar_l s : broadcast_shapes [] s = Ok s.
Proof. unfold broadcast_shapes. cbn. now rewrite rev_involutive. Qed.

Lemma valid_index_nil i : valid_index [] i <-> i = [].
Proof. split; [intros H; now inversion H|intros ->; constructor]. Qed.

(** ** Raveling in C order *)
Fixpoint ravel (s : shape) (i : index) : nat :=
  match s, i with
  | _ :: s', k :: i' => k * size s' + ravel s' i'
  | _, _ => 0
  end.
Fixpoint all_indices (s : shape) : list index :=
  match s with
  | [] => [[]]
  | d :: s' => flat_map (fun k => map (cons k) (all_indices s')) (seq 0 d)
  end.

Lemma all_indices_spec s i : In i (all_indices s) <-> valid_index s i.
Proof.
  revert i. induction s as [|d s IH]; intros i; cbn [all_indices].
  - rewrite valid_index_nil. cbn. intuition congruence.
  - rewrite in_flat_map. split.
    + intros [k [Hk H]]. apply in_map_iff in H as [j [<- Hj]]. apply in_seq in Hk.
      constructor; [lia|]. now apply IH.
    + intros H. inversion H as [|k d' j s' L H']; subst. exists k. split; [apply in_seq; lia|].
      apply in_map. now apply IH.
Qed.

Lemma map_flat_map {A B C} (f : B -> C) (g : A -> list B) l : map f (flat_map g l) = flat_map (fun x => map f (g x)) l.
Proof. induction l as [|x l IH]; [reflexivity|]. cbn. now rewrite map_app, IH. Qed.

Lemma flat_map_seq n m a : flat_map (fun k => seq (k * m) m) (seq a n) = seq (a * m) (n * m).
Proof.
  revert a. induction n as [|n IH]; intros a; [reflexivity|]. cbn [seq flat_map].
  rewrite IH. replace (S a * m) with (a * m + m) by lia. rewrite <- seq_app. f_equal.
Qed.

(** C order enumerates the entries consecutively. *)
Lemma ravel_all s : map (ravel s) (all_indices s) = seq 0 (size s).
Proof.
  induction s as [|d s IH]; [reflexivity|]. cbn [all_indices].
  rewrite map_flat_map.
  transitivity (flat_map (fun k => seq (k * size s) (size s)) (seq 0 d)).
  - apply flat_map_ext. intros k. rewrite map_map. cbn [ravel].
    rewrite <- (map_map (ravel s) (fun r => k * size s + r)), IH.
    generalize (size s) at 2 4. intros m. clear. generalize (k * size s) as a. intros a.
    replace (seq a m) with (seq (a + 0) m) by (f_equal; lia). generalize 0 as b.
    induction m as [|m IHm]; intros b; [reflexivity|]. cbn. f_equal. rewrite IHm. f_equal. lia.
  - rewrite flat_map_seq. reflexivity.
Qed.
Lemma ravel_lt s i : valid_index s i -> ravel s i < size s.
Proof.
  intros H. apply all_indices_spec, (in_map (ravel s)) in H. rewrite ravel_all in H. apply in_seq in H. lia.
Qed.
Lemma ravel_surj s n : n < size s -> exists i, valid_index s i /\ ravel s i = n.
Proof.
  intros H. assert (E : In n (map (ravel s) (all_indices s))) by (rewrite ravel_all; apply in_seq; lia).
  apply in_map_iff in E as [i [E Hi]]. exists i. split; [now apply all_indices_spec|exact E].
Qed.
Lemma ravel_inj s i j : valid_index s i -> valid_index s j -> ravel s i = ravel s j -> i = j.
Proof.
  intros Hi. revert j. induction Hi as [|k d i s L Hi IH]; intros j Hj E.
  - inversion Hj. reflexivity.
  - inversion Hj as [|k' d' j' s' L' Hj']; subst. cbn in E.
    pose proof (ravel_lt _ _ Hi). pose proof (ravel_lt _ _ Hj').
    assert (k = k') by nia. subst k'. f_equal. apply IH; [assumption|lia].
Qed.
