(** Lemmas about covariances with finitely many features. *)
From Coq Require Import List Arith Lia Bool Reals Ring.
From Verif Require Import Base NdArray NdData BlockModel CovModel CovSpec CrossModel CrossProofs CrossKern ParamModel ParamSpec.
Import ListNotations.

(** ** Finite sums *)
Section Sums.
Context {F : fops} (LF : flaws F).
Add Field FField : (fl_field F LF).
Notation "x + y" := (fadd x y). Notation "x * y" := (fmul x y).

Lemma sum_ext {A} (f g : A -> F) l : (forall x, In x l -> f x = g x) -> fsum (map f l) = fsum (map g l).
Proof. intros H. f_equal. now apply map_ext_in. Qed.
Lemma sum_ext_seq (f g : nat -> F) n : (forall k, (k < n)%nat -> f k = g k) -> fsum (map f (seq 0 n)) = fsum (map g (seq 0 n)).
Proof. intros H. apply sum_ext. intros k Hk. apply H. apply in_seq in Hk. lia. Qed.
Lemma sum_add {A} (f g : A -> F) l : fsum (map (fun x => f x + g x) l) = fsum (map f l) + fsum (map g l).
Proof. induction l as [|x l IH]; cbn; [ring|]. unfold fsum in IH. rewrite IH. ring. Qed.
Lemma sum_sub {A} (f g : A -> F) l : fsum (map (fun x => fsub (f x) (g x)) l) = fsub (fsum (map f l)) (fsum (map g l)).
Proof. induction l as [|x l IH]; cbn; [ring|]. unfold fsum in IH. rewrite IH. ring. Qed.
Lemma sum_scal_l {A} (c : F) (f : A -> F) l : c * fsum (map f l) = fsum (map (fun x => c * f x) l).
Proof. induction l as [|x l IH]; cbn; [ring|]. unfold fsum in IH. rewrite <- IH. ring. Qed.
Lemma sum_scal_r {A} (c : F) (f : A -> F) l : fsum (map f l) * c = fsum (map (fun x => f x * c) l).
Proof. induction l as [|x l IH]; cbn; [ring|]. unfold fsum in IH. rewrite <- IH. ring. Qed.
Lemma sum_zero {A} (l : list A) : fsum (map (fun _ => @f0 F) l) = f0.
Proof. induction l as [|x l IH]; [reflexivity|]. cbn [map]. change (fsum (?a :: ?r)) with (a + fsum r). rewrite IH. ring. Qed.
Lemma sum_swap {A B} (f : A -> B -> F) (l : list A) (m : list B) :
  fsum (map (fun x => fsum (map (fun y => f x y) m)) l) = fsum (map (fun y => fsum (map (fun x => f x y) l)) m).
Proof.
  induction l as [|x l IH]; [symmetry; apply sum_zero|]. cbn [map]. change (fsum (?a :: ?r)) with (a + fsum r). rewrite IH.
  symmetry. apply (sum_add (fun y => f x y) (fun y => fsum (map (fun x => f x y) l)) m).
Qed.
(** A sum over the index [k] with a Kronecker delta. *)
Lemma sum_delta n j (f : nat -> F) : (j < n)%nat -> fsum (map (fun k => f k * (if k =? j then f1 else f0)) (seq 0 n)) = f j.
Proof.
  intros H. replace n with (j + (1 + (n - S j)))%nat by lia. rewrite seq_app, map_app. cbn [Nat.add seq map].
  assert (A : forall l m : list F, fsum (l ++ m) = fsum l + fsum m).
  { intros l m. induction l as [|a l IH]; [change (fsum m = f0 + fsum m); ring|]. change (a + fsum (l ++ m) = a + fsum l + fsum m). rewrite IH. ring. }
  rewrite A. change (fsum (?a :: ?r)) with (a + fsum r). rewrite Nat.eqb_refl.
  rewrite (sum_ext _ (fun _ => f0) (seq 0 j)), (sum_ext _ (fun _ => f0) (seq (S j) (n - S j))), !sum_zero; [ring| |];
    intros k Hk; apply in_seq in Hk; destruct (Nat.eqb_spec k j); (lia || ring).
Qed.
Lemma sum_delta_l n j (f : nat -> F) : (j < n)%nat -> fsum (map (fun k => (if k =? j then f1 else f0) * f k) (seq 0 n)) = f j.
Proof. intros H. rewrite <- (sum_delta n j f H). apply sum_ext. intros k _. ring. Qed.

(** ** Bilinear forms *)
Lemma bilinear_dot n (S : nat -> nat -> F) u v : bilinear n S u v = dot n u (fun k => fsum (map (fun l => S k l * v l) (seq 0 n))).
Proof. unfold bilinear, dot. apply sum_ext. intros k _. rewrite sum_scal_l. apply sum_ext. intros l _. ring. Qed.
Lemma bilinear_dot_l n (S : nat -> nat -> F) u v : bilinear n S u v = dot n (fun l => fsum (map (fun k => u k * S k l) (seq 0 n))) v.
Proof.
  unfold bilinear, dot. rewrite sum_swap. apply sum_ext. intros l _. rewrite sum_scal_r. reflexivity.
Qed.
Lemma bilinear_sym n (S : nat -> nat -> F) u v : (forall k l, (k < n)%nat -> (l < n)%nat -> S k l = S l k) -> bilinear n S u v = bilinear n S v u.
Proof.
  intros H. unfold bilinear. rewrite sum_swap. apply sum_ext_seq. intros k Hk. apply sum_ext_seq. intros l Hl. rewrite (H l k) by assumption. ring.
Qed.
Lemma bilinear_ext n (S T : nat -> nat -> F) u u' v v' : (forall k l, (k < n)%nat -> (l < n)%nat -> S k l = T k l) ->
  (forall k, (k < n)%nat -> u k = u' k) -> (forall k, (k < n)%nat -> v k = v' k) -> bilinear n S u v = bilinear n T u' v'.
Proof.
  intros H Hu Hv. apply sum_ext_seq. intros k Hk. apply sum_ext_seq. intros l Hl. now rewrite H, Hu, Hv.
Qed.
Lemma dot_sym n (u v : nat -> F) : dot n u v = dot n v u.
Proof. apply sum_ext. intros k _. ring. Qed.
Lemma dot_ext n (u u' v v' : nat -> F) : (forall k, (k < n)%nat -> u k = u' k) -> (forall k, (k < n)%nat -> v k = v' k) -> dot n u v = dot n u' v'.
Proof. intros Hu Hv. apply sum_ext_seq. intros k Hk. now rewrite Hu, Hv. Qed.
Lemma bilinear_add_l n (S : nat -> nat -> F) u u' v : bilinear n S (fun k => u k + u' k) v = bilinear n S u v + bilinear n S u' v.
Proof.
  unfold bilinear. rewrite <- sum_add. apply sum_ext. intros k _. rewrite <- sum_add. apply sum_ext. intros l _. ring.
Qed.
Lemma bilinear_add_r n (S : nat -> nat -> F) u v v' : bilinear n S u (fun k => v k + v' k) = bilinear n S u v + bilinear n S u v'.
Proof.
  unfold bilinear. rewrite <- sum_add. apply sum_ext. intros k _. rewrite <- sum_add. apply sum_ext. intros l _. ring.
Qed.
(** Linear combinations of vectors. *)
Lemma bilinear_combo {X} n (S : nat -> nat -> F) (phi : X -> nat -> F) (l : list (F * X)) :
  fsum (map (fun p => fsum (map (fun q => fst p * fst q * bilinear n S (phi (snd p)) (phi (snd q))) l)) l) =
  bilinear n S (fun k => fsum (map (fun p => fst p * phi (snd p) k) l)) (fun k => fsum (map (fun p => fst p * phi (snd p) k) l)).
Proof.
  rewrite bilinear_dot. unfold dot.
  transitivity (fsum (map (fun k => fsum (map (fun p => fst p * phi (snd p) k *
     fsum (map (fun m => S k m * fsum (map (fun q => fst q * phi (snd q) m) l)) (seq 0 n))) l)) (seq 0 n))).
  2:{ apply sum_ext. intros k _. now rewrite sum_scal_r. }
  etransitivity; [|apply sum_swap]. apply sum_ext. intros p _.
  transitivity (fsum (map (fun q => fsum (map (fun k => fst p * phi (snd p) k * fsum (map (fun m => S k m * (fst q * phi (snd q) m)) (seq 0 n))) (seq 0 n))) l)).
  - apply sum_ext. intros q _. rewrite bilinear_dot. unfold dot. rewrite sum_scal_l. apply sum_ext. intros k _.
    transitivity (fst p * phi (snd p) k * (fst q * fsum (map (fun m => S k m * phi (snd q) m) (seq 0 n)))); [ring|]. f_equal.
    rewrite sum_scal_l. apply sum_ext. intros m _. ring.
  - etransitivity; [apply sum_swap|]. apply sum_ext. intros k _. rewrite <- sum_scal_l. f_equal. etransitivity; [apply sum_swap|]. apply sum_ext. intros m _. now rewrite sum_scal_l.
Qed.
End Sums.

(** ** Broadcasting *)
Lemma broadcast_rev_valid_l a : forall b s, broadcast_rev a b = Ok s -> forall i, Forall2 lt i s ->
  Forall2 lt (map (fun '(d, k) => if d =? 1 then 0 else k) (combine a i)) a /\ length a <= length s.
Proof.
  induction a as [|x a IH]; intros b s E i Hi; [cbn; split; [constructor|lia]|].
  destruct b as [|y b]; cbn [broadcast_rev] in E.
  - inversion E; subst s. inversion Hi as [|k ? i' ? Hk Hi']; subst. cbn [combine map].
    assert (R : broadcast_rev a [] = Ok a) by now destruct a. destruct (IH [] a R i' Hi') as [V _].
    split; [|cbn; lia]. constructor; [destruct (Nat.eqb_spec x 1); lia|exact V].
  - destruct (Nat.eqb_spec x y) as [->|N].
    + destruct (broadcast_rev a b) as [r|] eqn:E'; [|discriminate]. cbn in E. inversion E; subst s.
      inversion Hi as [|k ? i' ? Hk Hi']; subst. destruct (IH b r E' i' Hi') as [V L]. cbn [combine map length].
      split; [|lia]. constructor; [destruct (Nat.eqb_spec y 1); lia|exact V].
    + destruct (Nat.eqb_spec x 1) as [->|N1].
      * destruct (broadcast_rev a b) as [r|] eqn:E'; [|discriminate]. cbn in E. inversion E; subst s.
        inversion Hi as [|k ? i' ? Hk Hi']; subst. destruct (IH b r E' i' Hi') as [V L]. cbn [combine map length Nat.eqb].
        split; [|lia]. constructor; [lia|exact V].
      * destruct (Nat.eqb_spec y 1) as [->|N2]; [|discriminate].
        destruct (broadcast_rev a b) as [r|] eqn:E'; [|discriminate]. cbn in E. inversion E; subst s.
        inversion Hi as [|k ? i' ? Hk Hi']; subst. destruct (IH b r E' i' Hi') as [V L]. cbn [combine map length].
        split; [|lia]. constructor; [destruct (Nat.eqb_spec x 1); lia|exact V].
Qed.
Lemma broadcast_rev_sym a : forall b, broadcast_rev a b = broadcast_rev b a.
Proof.
  induction a as [|x a IH]; intros [|y b]; try reflexivity. cbn [broadcast_rev]. rewrite (IH b), (Nat.eqb_sym y x).
  destruct (Nat.eqb_spec x y) as [->|N]; [reflexivity|]. destruct (Nat.eqb_spec x 1), (Nat.eqb_spec y 1); try reflexivity. lia.
Qed.
Lemma broadcast_sym a b : broadcast_shapes a b = broadcast_shapes b a.
Proof. unfold broadcast_shapes. now rewrite broadcast_rev_sym. Qed.
Lemma Forall2_rev {A B} (P : A -> B -> Prop) l m : Forall2 P l m -> Forall2 P (rev l) (rev m).
Proof. induction 1 as [|x y l m Pxy H IH]; [constructor|]. cbn. apply Forall2_app; [exact IH|]. now repeat constructor. Qed.
Lemma combine_rev {A B} (l : list A) : forall m : list B, length l = length m -> rev (combine l m) = combine (rev l) (rev m).
Proof.
  induction l as [|x l IH]; intros [|y m] E; try discriminate; [reflexivity|]. cbn [combine rev]. rewrite IH by (cbn in E; lia).
  cbn in E. assert (L : length (rev l) = length (rev m)) by (rewrite !rev_length; lia). revert L. generalize (rev l), (rev m). clear.
  induction l as [|a l IH]; intros [|b m] L; try discriminate; [reflexivity|]. cbn. f_equal. apply IH. now injection L.
Qed.
Lemma combine_trunc {A B} (l : list A) : forall m : list B, combine l (firstn (length l) m) = combine l m.
Proof. induction l as [|x l IH]; intros [|y m]; try reflexivity. cbn. now rewrite IH. Qed.
(** The index into an operand is an index of the operand. *)
Lemma operand_valid a b s i : broadcast_shapes a b = Ok s -> valid_index s i -> valid_index a (operand_index a i).
Proof.
  unfold broadcast_shapes. destruct (broadcast_rev (rev a) (rev b)) as [r|] eqn:E; [|discriminate]. cbn. intros [= <-] Hi.
  apply Forall2_rev in Hi. rewrite rev_involutive in Hi. destruct (broadcast_rev_valid_l _ _ _ E _ Hi) as [V L].
  rewrite rev_length in L. apply Forall2_rev in V. rewrite rev_involutive, <- map_rev in V.
  assert (Li : length i = length r). { apply valid_index_length in Hi. now rewrite rev_length in Hi. }
  unfold valid_index, operand_index. replace (rev (combine (rev a) (rev i))) with (combine a (skipn (length i - length a) i)) in V; [exact V|].
  rewrite <- (combine_trunc (rev a) (rev i)), rev_length. rewrite <- (rev_involutive a) at 1 2.
  assert (EQ : firstn (length a) (rev i) = rev (skipn (length i - length a) i)).
  { rewrite <- (firstn_skipn (length i - length a) i) at 1. rewrite rev_app_distr. apply firstn_app_l. rewrite rev_length, skipn_length. lia. }
  rewrite EQ, !rev_involutive. rewrite combine_rev; rewrite ?rev_involutive; [reflexivity|]. rewrite !rev_length, skipn_length. lia.
Qed.
Lemma operand_valid_r a b s i : broadcast_shapes a b = Ok s -> valid_index s i -> valid_index b (operand_index b i).
Proof. rewrite broadcast_sym. apply operand_valid. Qed.

(** ** Arrays *)
Section P.
Context {F : fops} (LF : flaws F).

Lemma inner_last_ok (a b : nd F) b0 b1 s n : nshape a = b0 ++ [n] -> nshape b = b1 ++ [n] -> broadcast_shapes b0 b1 = Ok s ->
  exists r, inner_last a b = Ok r /\
    array_is r s (fun i => dot n (fun k => nat_ a (operand_index b0 i ++ [k])) (fun k => nat_ b (operand_index b1 i ++ [k]))).
Proof.
  intros Ea Eb B. unfold inner_last. rewrite Ea, Eb, !rev_app_distr. cbn [rev app]. rewrite Nat.eqb_refl, !rev_involutive, B. cbn [bind].
  eexists. split; [reflexivity|]. split; [reflexivity|]. intros i Hi. reflexivity.
Qed.
Lemma inner_last_err (a b : nd F) b0 b1 n m : nshape a = b0 ++ [n] -> nshape b = b1 ++ [m] -> n <> m -> inner_last a b = Err ValueError.
Proof.
  intros Ea Eb N. unfold inner_last. rewrite Ea, Eb, !rev_app_distr. cbn [rev app]. destruct (Nat.eqb_spec n m); congruence.
Qed.
Lemma lin_last_ok (A : mat F) (a : nd F) s n : nshape a = s ++ [n] -> ncols A = n ->
  exists r, lin_last A a = Ok r /\ nshape r = s ++ [nrows A] /\
    forall i m, valid_index s i -> nat_ r (i ++ [m]) = fsum (map (fun k => fmul (entry A m k) (nat_ a (i ++ [k]))) (seq 0 n)).
Proof.
  intros E C. subst n. destruct (lin_axis_ok A a s (ncols A) [] E eq_refl) as [r [Er [S V]]].
  assert (L : lin_last A a = lin_axis A a (length s)).
  { unfold lin_last. rewrite E. destruct (s ++ [ncols A]) as [|q t] eqn:Q; [now destruct s|]. rewrite <- Q, app_length. cbn [length]. f_equal. lia. }
  exists r. rewrite L. split; [exact Er|]. split; [exact S|]. intros i m Hi. apply V; [now apply valid_index_length|reflexivity].
Qed.
Lemma lin_last_err (A : mat F) (a : nd F) s n : nshape a = s ++ [n] -> n <> ncols A -> lin_last A a = Err ValueError.
Proof.
  intros E N. assert (L : lin_last A a = lin_axis A a (length s)).
  { unfold lin_last. rewrite E. destruct (s ++ [n]) as [|q t] eqn:Q; [now destruct s|]. rewrite <- Q, app_length. cbn [length]. f_equal. lia. }
  rewrite L. unfold lin_axis. rewrite E, app_nth2, Nat.sub_diag by lia. cbn [nth]. destruct (Nat.eqb_spec n (ncols A)); [congruence|].
  now rewrite andb_false_r.
Qed.

(** ** Features *)
Lemma ft_array_at (f : feature F) b x i q : valid_index b i -> nat_ (ft_array f b x) (i ++ q) = ft_val f (pt x i) q.
Proof. intros Hi. apply valid_index_length in Hi. unfold ft_array. cbn [nat_]. now rewrite firstn_app_l, skipn_app_l. Qed.
(** A vector of features as array, whatever the call returns. *)
Lemma ft_call_vector (f : feature F) b x n : nshape x = b ++ ft_in f -> ft_out f = [n] ->
  exists v, ft_call f x = Ok v /\ nshape (dense v) = b ++ [n] /\
    (forall i k, valid_index b i -> k < n -> nat_ (dense v) (i ++ [k]) = ft_val f (pt x i) [k]) /\
    match v with VArr _ => True | VOp m => b = [nrows m] /\ n = ncols m end.
Proof.
  intros E O. unfold ft_call. rewrite (batch_shape_ok _ _ _ E). cbn [bind]. rewrite O.
  assert (A : nshape (ft_array f b x) = b ++ [n]) by (unfold ft_array; cbn; now rewrite O).
  destruct b as [|N [|N' b]].
  - eexists. split; [reflexivity|]. split; [exact A|]. split; [|exact I]. intros i k Hi Hk. now apply (ft_array_at f []).
  - destruct (ft_op f x).
    + eexists. split; [reflexivity|]. cbn [dense nd_of_mat nshape nrows ncols nat_ entry]. split; [reflexivity|]. split; [|auto].
      intros i k Hi Hk. inversion Hi as [|j ? t ? Hj Ht]; subst. inversion Ht; subst. reflexivity.
    + eexists. split; [reflexivity|]. split; [exact A|]. split; [|exact I]. intros i k Hi Hk. now apply (ft_array_at f [N]).
  - eexists. split; [reflexivity|]. split; [exact A|]. split; [|exact I]. intros i k Hi Hk. now apply (ft_array_at f (N :: N' :: b)).
Qed.
Lemma ft_call_other (f : feature F) b x : nshape x = b ++ ft_in f -> (forall n, ft_out f <> [n]) -> ft_call f x = Ok (VArr (ft_array f b x)).
Proof.
  intros E O. unfold ft_call. rewrite (batch_shape_ok _ _ _ E). cbn [bind]. destruct b as [|N [|N' b]]; try reflexivity.
  destruct (ft_out f) as [|n [|n' o]]; try reflexivity. now destruct (O n).
Qed.
Lemma scalar_call_ok insh ev x0 x1 b0 b1 b (g : index -> F) : points insh x0 x1 b0 b1 -> broadcast_shapes b0 b1 = Ok b ->
  (exists a, ev x0 x1 = Ok a /\ array_is a b g) -> exists a, scalar_call insh ev x0 x1 = Ok a /\ array_is a b g.
Proof.
  intros P B [a [E S]]. unfold scalar_call. rewrite (check_ok _ _ _ _ _ _ P B). cbn [bind]. rewrite E. cbn [bind]. exists a.
  destruct S as [S V]. rewrite S, shape_eqb_refl. split; [reflexivity|split; assumption].
Qed.
Lemma scalar_call_err insh ev x0 x1 b0 b1 b (e : exn) : points insh x0 x1 b0 b1 -> broadcast_shapes b0 b1 = Ok b ->
  ev x0 x1 = Err e -> @scalar_call F insh ev x0 x1 = Err e.
Proof. intros P B E. unfold scalar_call. rewrite (check_ok _ _ _ _ _ _ P B). cbn [bind]. now rewrite E. Qed.

(** ** [ParametricCovarianceFunction] *)
(** The basis returns arrays ([ft_op] never holds). *)
Definition plain_features (f : feature F) : Prop := forall x, ft_op f x = false.
Lemma plain_call (f : feature F) b x : plain_features f -> nshape x = b ++ ft_in f -> bind (ft_call f x) as_array = Ok (ft_array f b x).
Proof.
  intros P E. unfold ft_call. rewrite (batch_shape_ok _ _ _ E). cbn [bind]. rewrite P.
  now destruct b as [|N [|N' b]], (ft_out f) as [|n [|n' o]].
Qed.
Lemma second_features (f : feature F) x0 x1 b0 b1 : points (ft_in f) x0 x1 b0 b1 -> plain_features f ->
  bind (ft_call f x0) as_array = Ok (ft_array f b0 x0) /\
  (match x1 with None => Ok (ft_array f b0 x0) | Some x => bind (ft_call f x) as_array end) = Ok (ft_array f b1 (second x0 x1)).
Proof.
  intros [E0 E1] P. split; [now apply plain_call|]. destruct x1 as [x|]; cbn [second] in *; [now apply plain_call|].
  rewrite E0 in E1. apply app_inv_tail in E1. now subst b1.
Qed.
Lemma pcov_eval_ok (f : feature F) c n h x0 x1 b0 b1 b : plain_features f -> ft_out f = [n] -> shows c [n] [n] h ->
  points (ft_in f) x0 x1 b0 b1 -> broadcast_shapes b0 b1 = Ok b ->
  exists a, pcov_eval (mkpcov f c) x0 x1 = Ok a /\
    array_is a b (fun i => bilinear n (fun k l => h [k] [l]) (fun k => ft_val f (pt x0 (operand_index b0 i)) [k])
                            (fun l => ft_val f (pt (second x0 x1) (operand_index b1 i)) [l])).
Proof.
  intros P O [_ [_ [_ [_ [C [EC [CR [CC CV]]]]]]]] H B. unfold pcov_eval. cbn [pc_basis pc_cov].
  destruct (second_features f x0 x1 b0 b1 H P) as [-> E1]. cbn [bind]. rewrite E1. cbn [bind]. rewrite EC. cbn [bind].
  assert (SZ : size [n] = n) by (cbn; lia). rewrite SZ in CR, CC.
  destruct (lin_last_ok C (ft_array f b1 (second x0 x1)) b1 n) as [r [-> [Sr Vr]]]; [unfold ft_array; cbn; now rewrite O|assumption|]. cbn [bind].
  destruct (inner_last_ok (ft_array f b0 x0) r b0 b1 b n) as [a [-> [Sa Va]]]; [unfold ft_array; cbn; now rewrite O|now rewrite Sr, CR|exact B|].
  exists a. split; [reflexivity|]. split; [exact Sa|]. intros i Hi. rewrite Va by exact Hi. rewrite (bilinear_dot LF).
  pose proof (operand_valid _ _ _ _ B Hi) as V0. pose proof (operand_valid_r _ _ _ _ B Hi) as V1.
  apply dot_ext; intros k Hk; [now rewrite ft_array_at|]. rewrite Vr by exact V1. apply sum_ext_seq. intros l Hl.
  rewrite ft_array_at by exact V1. f_equal.
  assert (W : forall m, m < n -> valid_index [n] [m]) by (intros m Hm; constructor; [exact Hm|constructor]).
  rewrite <- (CV [k] [l]) by auto. cbn. now rewrite !Nat.mul_1_r, !Nat.add_0_r.
Qed.

(** ** [ParametricGaussianProcess] *)
Lemma as_matrix_ok (a : nd F) r c : nshape a = [r; c] -> exists m, as_matrix a = Ok m /\ nrows m = r /\ ncols m = c /\ forall i j, entry m i j = nat_ a [i; j].
Proof. intros E. unfold as_matrix, mat_of_nd. rewrite E. eexists. split; [reflexivity|]. cbn. auto. Qed.
(** The common end of all branches: rows of features and the matrix [Sigma]. *)
Lemma pgp_core (p0 p1 : fval F) (S : mat F) n b0 b1 b (u v : index -> nat -> F) :
  nshape (dense p0) = b0 ++ [n] -> nshape (dense p1) = b1 ++ [n] ->
  (forall i k, valid_index b0 i -> k < n -> nat_ (dense p0) (i ++ [k]) = u i k) ->
  (forall i k, valid_index b1 i -> k < n -> nat_ (dense p1) (i ++ [k]) = v i k) ->
  match p0 with VArr _ => True | VOp m => b0 = [nrows m] /\ n = ncols m end ->
  match p1 with VArr _ => True | VOp m => b1 = [nrows m] /\ n = ncols m end ->
  nrows S = n -> ncols S = n -> (forall k l, k < n -> l < n -> entry S k l = entry S l k) -> broadcast_shapes b0 b1 = Ok b ->
  exists a, match p0 with
    | VOp q0 => bind (mat_mul q0 S) (fun p0S => inner_last (nd_of_mat p0S) (dense p1))
    | VArr a0 => bind (match p1 with VOp q1 => bind (mat_mul q1 S) (fun p1S => Ok (nd_of_mat p1S)) | VArr a1 => lin_last S a1 end) (fun p1S => inner_last a0 p1S)
    end = Ok a /\ array_is a b (fun i => bilinear n (entry S) (u (operand_index b0 i)) (v (operand_index b1 i))).
Proof.
  intros S0 S1 V0 V1 O0 O1 SR SC SS B. destruct p0 as [a0|q0].
  - cbn [dense] in *. clear O0.
    assert (G : exists r, match p1 with VOp q1 => bind (mat_mul q1 S) (fun p1S => Ok (nd_of_mat p1S)) | VArr a1 => lin_last S a1 end = Ok r /\
      nshape r = b1 ++ [n] /\ forall i k, valid_index b1 i -> k < n -> nat_ r (i ++ [k]) = fsum (map (fun l => fmul (entry S k l) (v i l)) (seq 0 n))).
    { destruct p1 as [a1|q1]; cbn [dense] in *.
      - destruct (lin_last_ok S a1 b1 n S1 SC) as [r [Er [Sr Vr]]]. exists r. split; [exact Er|]. rewrite SR in Sr. split; [exact Sr|].
        intros i k Hi Hk. rewrite Vr by exact Hi. apply sum_ext_seq. intros l Hl. now rewrite V1.
      - destruct O1 as [-> On]. unfold mat_mul. rewrite <- On, SR, Nat.eqb_refl. cbn [bind]. eexists. split; [reflexivity|].
        cbn [nd_of_mat nshape nrows ncols nat_ entry]. split; [now rewrite SC|]. intros i k Hi Hk.
        inversion Hi as [|j ? t ? Hj Ht]; subst i. inversion Ht; subst t. cbn [app]. apply sum_ext_seq. intros l Hl.
        rewrite <- (V1 [j] l Hi Hl). cbn [nd_of_mat nat_ app]. rewrite (SS k l) by assumption.
        destruct (fl_field F LF) as [R _ _ _]. apply (Ring_theory.Rmul_comm R). }
    destruct G as [r [-> [Sr Vr]]]. cbn [bind]. destruct (inner_last_ok a0 r b0 b1 b n S0 Sr B) as [a [-> [Sa Va]]]. exists a. split; [reflexivity|].
    split; [exact Sa|]. intros i Hi. rewrite Va by exact Hi. pose proof (operand_valid _ _ _ _ B Hi) as W0. pose proof (operand_valid_r _ _ _ _ B Hi) as W1.
    rewrite (bilinear_dot LF). apply dot_ext; intros k Hk; [now apply V0|]. now apply Vr.
  - destruct O0 as [-> On]. unfold mat_mul. rewrite <- On, SR, Nat.eqb_refl. cbn [bind].
    match goal with |- context [inner_last (nd_of_mat ?m) _] => set (M := m) end.
    destruct (inner_last_ok (nd_of_mat M) (dense p1) [nrows q0] b1 b n) as [a [-> [Sa Va]]]; [unfold M; cbn; now rewrite SC|exact S1|exact B|].
    exists a. split; [reflexivity|]. split; [exact Sa|]. intros i Hi. rewrite Va by exact Hi.
    pose proof (operand_valid _ _ _ _ B Hi) as W0. pose proof (operand_valid_r _ _ _ _ B Hi) as W1.
    rewrite (bilinear_dot_l LF). apply dot_ext; intros k Hk; [|now apply V1].
    revert W0. generalize (operand_index [nrows q0] i). intros i0 W0.
    inversion W0 as [|j ? t ? Hj Ht EQ]; subst i0. inversion Ht; subst t. unfold M. cbn [app nd_of_mat nat_ entry]. apply sum_ext_seq. intros l Hl.
    now rewrite <- (V0 [j] l W0 Hl).
Qed.
Lemma pgp_vector (w : weights F) (f : feature F) n x0 x1 b0 b1 b : ft_out f = [n] -> nshape (w_cov w) = [n; n] ->
  (forall k l, k < n -> l < n -> nat_ (w_cov w) [k; l] = nat_ (w_cov w) [l; k]) ->
  points (ft_in f) x0 x1 b0 b1 -> broadcast_shapes b0 b1 = Ok b ->
  exists a, pgp_cov_eval w f x0 x1 = Ok a /\
    array_is a b (fun i => bilinear n (fun k l => nat_ (w_cov w) [k; l]) (fun k => ft_val f (pt x0 (operand_index b0 i)) [k])
                            (fun l => ft_val f (pt (second x0 x1) (operand_index b1 i)) [l])).
Proof.
  intros O SW SS [E0 E1] B. unfold pgp_cov_eval. rewrite O.
  destruct (ft_call_vector f b0 x0 n E0 O) as [p0 [Ep0 [S0 [V0 O0]]]]. rewrite Ep0. cbn [bind].
  assert (G : exists p1, (match x1 with None => Ok p0 | Some x => ft_call f x end) = Ok p1 /\ nshape (dense p1) = b1 ++ [n] /\
    (forall i k, valid_index b1 i -> k < n -> nat_ (dense p1) (i ++ [k]) = ft_val f (pt (second x0 x1) i) [k]) /\
    match p1 with VArr _ => True | VOp m => b1 = [nrows m] /\ n = ncols m end).
  { destruct x1 as [x|]; cbn [second] in *; [now apply ft_call_vector|]. rewrite E0 in E1. apply app_inv_tail in E1. subst b1. exists p0. auto. }
  destruct G as [p1 [-> [S1 [V1 O1]]]]. cbn [bind]. destruct (as_matrix_ok _ _ _ SW) as [S [-> [SR [SC SE]]]]. cbn [bind].
  destruct (pgp_core p0 p1 S n b0 b1 b _ _ S0 S1 V0 V1 O0 O1 SR SC) as [a [Ea Ha]]; [intros k l Hk Hl; rewrite !SE; now apply SS|exact B|].
  exists a. split; [exact Ea|]. destruct Ha as [Sa Va]. split; [exact Sa|]. intros i Hi. rewrite Va by exact Hi. apply bilinear_ext; auto.
Qed.
Lemma pgp_scalar (w : weights F) (f : feature F) x0 x1 b0 b1 b : ft_out f = [] -> nshape (w_cov w) = [] ->
  points (ft_in f) x0 x1 b0 b1 -> broadcast_shapes b0 b1 = Ok b ->
  exists a, pgp_cov_eval w f x0 x1 = Ok a /\
    array_is a b (fun i => fmul (fmul (ft_val f (pt x0 (operand_index b0 i)) []) (nat_ (w_cov w) [])) (ft_val f (pt (second x0 x1) (operand_index b1 i)) [])).
Proof.
  intros O SW [E0 E1] B. unfold pgp_cov_eval. rewrite O.
  assert (N : forall n, ft_out f <> [n]) by (rewrite O; discriminate).
  rewrite (ft_call_other f b0 x0 E0 N). cbn [bind as_array].
  set (P := fun b x => VArr (newaxis_last (ft_array f b x))).
  assert (G : (match x1 with None => Ok (P b0 x0) | Some x => bind (bind (ft_call f x) as_array) (fun a => Ok (VArr (newaxis_last a))) end) = Ok (P b1 (second x0 x1))).
  { destruct x1 as [x|]; cbn [second] in *; [now rewrite (ft_call_other f b1 x E1 N)|]. rewrite E0 in E1. apply app_inv_tail in E1. now subst b1. }
  fold (P b0 x0). rewrite G. cbn [bind].
  destruct (as_matrix_ok (newaxis_front2 (w_cov w)) 1 1) as [S [-> [SR [SC SE]]]]; [unfold newaxis_front2; cbn; now rewrite SW|]. cbn [bind].
  assert (SP : forall b x, nshape (dense (P b x)) = b ++ [1]) by (intros b' x; unfold P, newaxis_last, ft_array; cbn; now rewrite O, app_nil_r).
  assert (VP : forall b x i k, valid_index b i -> k < 1 -> nat_ (dense (P b x)) (i ++ [k]) = ft_val f (pt x i) []).
  { intros b' x i k Hi Hk. unfold P, newaxis_last. cbn [dense nat_]. rewrite removelast_last. rewrite <- (app_nil_r i) at 1. now apply ft_array_at. }
  destruct (pgp_core (P b0 x0) (P b1 (second x0 x1)) S 1 b0 b1 b (fun i _ => ft_val f (pt x0 i) []) (fun i _ => ft_val f (pt (second x0 x1) i) [])
     (SP _ _) (SP _ _) (VP _ _) (VP _ _) I I SR SC) as [a [Ea [Sa Va]]];
    [intros k l Hk Hl; assert (k = 0) as -> by lia; assert (l = 0) as -> by lia; reflexivity|exact B|].
  exists a. split; [exact Ea|]. split; [exact Sa|]. intros i Hi. rewrite Va by exact Hi. unfold bilinear. cbn. rewrite SE. unfold newaxis_front2. cbn.
  destruct (fl_field F LF) as [R _ _ _]. destruct R. rewrite <- !(Radd_comm f0), !Radd_0_l. reflexivity.
Qed.
Lemma pgp_mean_ok (w : weights F) (f : feature F) n x b : ft_out f = [n] -> nshape (w_mean w) = [n] -> nshape x = b ++ ft_in f ->
  exists a, pgp_mean w f x = Ok a /\ array_is a b (fun i => dot n (fun k => ft_val f (pt x i) [k]) (fun k => nat_ (w_mean w) [k])).
Proof.
  intros O SM E. unfold pgp_mean. rewrite (batch_shape_ok _ _ _ E). cbn [bind]. unfold pgp_mean_eval.
  destruct (ft_call_vector f b x n E O) as [p [-> [S [V Op]]]]. cbn [bind]. rewrite O, SM.
  enough (G : exists a, match p with
    | VArr a => inner_last a (w_mean w)
    | VOp m => bind (mat_mul m (mkmat (nth 0 [n] 0) 1 (fun i _ => nat_ (w_mean w) [i]))) (fun r => Ok (Nd [nrows r] (fun l => entry r (nth 0 l 0) 0)))
    end = Ok a /\ array_is a b (fun i => dot n (fun k => ft_val f (pt x i) [k]) (fun k => nat_ (w_mean w) [k]))).
  { destruct G as [a [-> [Sa Va]]]. cbn [bind]. exists a. rewrite Sa, shape_eqb_refl. split; [reflexivity|now split]. }
  destruct p as [a|m]; cbn [dense] in *.
  - destruct (inner_last_ok a (w_mean w) b [] b n S) as [r [-> [Sr Vr]]]; [exact SM|rewrite broadcast_sym; apply broadcast_scalar_l|].
    exists r. split; [reflexivity|]. split; [exact Sr|]. intros i Hi. rewrite Vr by exact Hi. rewrite operand_index_id by exact Hi.
    apply dot_ext; intros k Hk; [now apply V|reflexivity].
  - destruct Op as [-> On]. unfold mat_mul. cbn [nth nrows ncols entry]. rewrite <- On, Nat.eqb_refl. cbn [bind]. eexists. split; [reflexivity|].
    split; [reflexivity|]. intros i Hi. inversion Hi as [|j ? t ? Hj Ht]; subst i. inversion Ht; subst t. cbn [nat_ nth entry].
    apply sum_ext_seq. intros k Hk. rewrite <- (V [j] k Hi Hk). reflexivity.
Qed.
Lemma pgp_mean_scalar (w : weights F) (f : feature F) x b : ft_out f = [] -> nshape (w_mean w) = [] -> nshape x = b ++ ft_in f ->
  exists a, pgp_mean w f x = Ok a /\ array_is a b (fun i => fmul (ft_val f (pt x i) []) (nat_ (w_mean w) [])).
Proof.
  intros O SM E. unfold pgp_mean. rewrite (batch_shape_ok _ _ _ E). cbn [bind]. unfold pgp_mean_eval.
  assert (N : forall n, ft_out f <> [n]) by (rewrite O; discriminate). rewrite (ft_call_other f b x E N). cbn [bind]. rewrite O, SM. cbn [bind nd_map nshape].
  unfold ft_array at 1. cbn [nshape]. rewrite O, app_nil_r, shape_eqb_refl. eexists. split; [reflexivity|]. split; [cbn; rewrite O; apply app_nil_r|].
  intros i Hi. cbn [nat_ nd_map]. f_equal. rewrite <- (app_nil_r i) at 1. now apply ft_array_at.
Qed.
End P.
