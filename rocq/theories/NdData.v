(** NumPy arrays as shape and entries; reshaping in C order. *)
From Coq Require Import List Arith Lia Bool.
From Verif Require Import Base NdArray.
Import ListNotations.

(** An array: its shape and its entries.  Entries at invalid indices carry no
    meaning; arrays are compared with [nd_eq]. *)
Record nd (A : Type) := Nd { nshape : shape; nat_ : index -> A }.
Arguments Nd {A}. Arguments nshape {A}. Arguments nat_ {A}.
Definition nd_eq {A} (a b : nd A) : Prop :=
  nshape a = nshape b /\ forall i, valid_index (nshape a) i -> nat_ a i = nat_ b i.

(** Multi-index of the [n]-th entry in C order ([np.unravel_index]). *)
Fixpoint unravel (s : shape) (n : nat) : index :=
  match s with
  | [] => []
  | _ :: s' => n / size s' :: unravel s' (n mod size s')
  end.

(** [np.reshape(a, t, order="C")] *)
Definition reshape {A} (a : nd A) (t : shape) : result (nd A) :=
  if size (nshape a) =? size t
  then Ok (Nd t (fun i => nat_ a (unravel (nshape a) (ravel t i))))
  else Err ValueError.
(** Entrywise maps. *)
Definition nd_map {A B} (f : A -> B) (a : nd A) : nd B := Nd (nshape a) (fun i => f (nat_ a i)).
Definition nd_map2 {A B C} (f : A -> B -> C) (a : nd A) (b : nd B) : nd C :=
  Nd (nshape a) (fun i => f (nat_ a i) (nat_ b i)).

(** ** Facts *)
Lemma size_app s t : size (s ++ t) = size s * size t.
Proof.
  induction s as [|d s IH]; [change (size []) with 1; cbn [app]; lia|].
  change (size ((d :: s) ++ t)) with (d * size (s ++ t)). change (size (d :: s)) with (d * size s).
  rewrite IH. lia.
Qed.
Lemma valid_index_app s t i j : valid_index s i -> valid_index t j -> valid_index (s ++ t) (i ++ j).
Proof. intros H1 H2. now apply Forall2_app. Qed.
Lemma valid_index_app_inv s t l : valid_index (s ++ t) l ->
  exists i j, l = i ++ j /\ valid_index s i /\ valid_index t j.
Proof. intros H. apply Forall2_app_inv_r in H as [i [j [Hi [Hj ->]]]]. now exists i, j. Qed.
Lemma ravel_app s t i j : valid_index s i -> valid_index t j ->
  ravel (s ++ t) (i ++ j) = ravel s i * size t + ravel t j.
Proof.
  intros Hi Hj. induction Hi as [|k d i s L Hi IH]; [reflexivity|].
  cbn. rewrite IH, size_app. lia.
Qed.
Lemma unravel_valid s n : n < size s -> valid_index s (unravel s n).
Proof.
  revert n. induction s as [|d s IH]; intros n H; [constructor|]. change (size (d :: s)) with (d * size s) in H. cbn [unravel].
  assert (size s <> 0) by nia.
  constructor.
  - apply Nat.div_lt_upper_bound; [assumption|] . lia.
  - apply IH. now apply Nat.mod_upper_bound.
Qed.
Lemma ravel_unravel s n : n < size s -> ravel s (unravel s n) = n.
Proof.
  revert n. induction s as [|d s IH]; intros n H; [cbn in *; lia|]. change (size (d :: s)) with (d * size s) in H. cbn [unravel ravel].
  assert (size s <> 0) by nia.
  rewrite IH by now apply Nat.mod_upper_bound.
  rewrite (Nat.div_mod n (size s)) at 3 by assumption. lia.
Qed.
Lemma unravel_ravel s i : valid_index s i -> unravel s (ravel s i) = i.
Proof.
  intros H. apply (ravel_inj s); [|exact H|].
  - apply unravel_valid, ravel_lt, H.
  - apply ravel_unravel, ravel_lt, H.
Qed.
Lemma reshape_ok {A} (a : nd A) t : size (nshape a) = size t ->
  exists b, reshape a t = Ok b /\ nshape b = t /\
    forall i j, valid_index (nshape a) i -> valid_index t j -> ravel (nshape a) i = ravel t j -> nat_ b j = nat_ a i.
Proof.
  intros E. unfold reshape. apply Nat.eqb_eq in E. rewrite E. eexists. split; [reflexivity|]. split; [reflexivity|].
  intros i j Hi Hj R. cbn. now rewrite <- R, unravel_ravel.
Qed.
Lemma nd_eq_refl {A} (a : nd A) : nd_eq a a.
Proof. split; auto. Qed.
Lemma nd_eq_sym {A} (a b : nd A) : nd_eq a b -> nd_eq b a.
Proof. intros [E H]. split; [auto|]. intros i Hi. rewrite <- E in Hi. symmetry. auto. Qed.
Lemma nd_eq_trans {A} (a b c : nd A) : nd_eq a b -> nd_eq b c -> nd_eq a c.
Proof. intros [E H] [E' H']. split; [congruence|]. intros i Hi. rewrite H by auto. apply H'. congruence. Qed.
Lemma reshape_back {A} (a b : nd A) t : reshape a t = Ok b ->
  exists c, reshape b (nshape a) = Ok c /\ nd_eq c a.
Proof.
  unfold reshape. destruct (Nat.eqb_spec (size (nshape a)) (size t)) as [E|]; [|discriminate].
  intros [= <-]. cbn [nshape nat_]. apply Nat.eqb_eq in E as E'. rewrite Nat.eqb_sym, E'.
  eexists. split; [reflexivity|]. split; [reflexivity|]. cbn. intros i Hi.
  pose proof (ravel_lt _ _ Hi) as L. rewrite ravel_unravel by lia. now rewrite unravel_ravel.
Qed.
