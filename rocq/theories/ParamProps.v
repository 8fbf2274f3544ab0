(** C28: parametric covariances and processes. *)
From Coq Require Import List Arith Lia Bool Reals Lra.
From Verif Require Import Base NdArray NdData BlockModel CovModel CovSpec CovProofs CrossModel CrossProofs CrossKern ParamModel ParamSpec ParamProofs.
Import ListNotations.

(** The covariance of [ParametricGaussianProcess] at batches of points is
    [phi(x0)^T Sigma phi(x1)], whether the features at either argument are an array or a
    linear operator, and for a missing second argument. *)
Theorem C28_process_covariance : forall (F : fops), flaws F -> forall (w : weights F) (f : feature F) n x0 x1 b0 b1 b,
  ft_out f = [n] -> nshape (w_cov w) = [n; n] ->
  (forall k l, k < n -> l < n -> nat_ (w_cov w) [k; l] = nat_ (w_cov w) [l; k]) ->
  nshape x0 = b0 ++ ft_in f -> nshape (second x0 x1) = b1 ++ ft_in f -> broadcast_shapes b0 b1 = Ok b ->
  exists a, pgp_cov w f x0 x1 = Ok a /\
    array_is a b (fun i => bilinear n (fun k l => nat_ (w_cov w) [k; l])
                             (fun k => ft_val f (pt x0 (operand_index b0 i)) [k])
                             (fun l => ft_val f (pt (second x0 x1) (operand_index b1 i)) [l])).
Proof.
  intros F LF w f n x0 x1 b0 b1 b O SW SS E0 E1 B. apply (scalar_call_ok _ _ _ _ b0 b1); [now split|exact B|].
  apply (pgp_vector LF w f n); auto. now split.
Qed.
(** The same for one scalar feature. *)
Theorem C28_process_covariance_scalar : forall (F : fops), flaws F -> forall (w : weights F) (f : feature F) x0 x1 b0 b1 b,
  ft_out f = [] -> nshape (w_cov w) = [] ->
  nshape x0 = b0 ++ ft_in f -> nshape (second x0 x1) = b1 ++ ft_in f -> broadcast_shapes b0 b1 = Ok b ->
  exists a, pgp_cov w f x0 x1 = Ok a /\
    array_is a b (fun i => fmul (fmul (ft_val f (pt x0 (operand_index b0 i)) []) (nat_ (w_cov w) []))
                                (ft_val f (pt (second x0 x1) (operand_index b1 i)) [])).
Proof.
  intros F LF w f x0 x1 b0 b1 b O SW E0 E1 B. apply (scalar_call_ok _ _ _ _ b0 b1); [now split|exact B|].
  apply (pgp_scalar LF w f); auto. now split.
Qed.
(** The mean is [phi(x)^T E[w]]. *)
Theorem C28_process_mean : forall (F : fops) (w : weights F) (f : feature F) n x b,
  ft_out f = [n] -> nshape (w_mean w) = [n] -> nshape x = b ++ ft_in f ->
  exists a, pgp_mean w f x = Ok a /\
    array_is a b (fun i => dot n (fun k => ft_val f (pt x i) [k]) (fun k => nat_ (w_mean w) [k])).
Proof. intros F w f n x b O SM E. now apply pgp_mean_ok. Qed.
Theorem C28_process_mean_scalar : forall (F : fops) (w : weights F) (f : feature F) x b,
  ft_out f = [] -> nshape (w_mean w) = [] -> nshape x = b ++ ft_in f ->
  exists a, pgp_mean w f x = Ok a /\ array_is a b (fun i => fmul (ft_val f (pt x i) []) (nat_ (w_mean w) [])).
Proof. intros F w f x b O SM E. now apply pgp_mean_scalar. Qed.
(** Weights of another length are rejected on evaluation. *)
Theorem C28_process_mismatch : forall (F : fops) (w : weights F) (f : feature F) n m x0 x1 b0 b1 b,
  ft_out f = [n] -> nshape (w_cov w) = [m; m] -> n <> m ->
  nshape x0 = b0 ++ ft_in f -> nshape (second x0 x1) = b1 ++ ft_in f -> broadcast_shapes b0 b1 = Ok b ->
  pgp_cov w f x0 x1 = Err ValueError.
Proof.
  intros F w f n m x0 x1 b0 b1 b O SW N E0 E1 B. apply (scalar_call_err _ _ _ _ b0 b1 b); [now split|exact B|].
  unfold pgp_cov_eval. rewrite O. destruct (ft_call_vector f b0 x0 n E0 O) as [p0 [Ep0 [S0 [V0 O0]]]]. rewrite Ep0. cbn [bind].
  assert (G : exists p1, (match x1 with None => Ok p0 | Some x => ft_call f x end) = Ok p1 /\ nshape (dense p1) = b1 ++ [n] /\
    match p1 with VArr _ => True | VOp m => b1 = [nrows m] /\ n = ncols m end).
  { destruct x1 as [x|]; cbn [second] in *.
    - destruct (ft_call_vector f b1 x n E1 O) as [p1 [E [S [_ Q]]]]. exists p1. auto.
    - rewrite E0 in E1. apply app_inv_tail in E1. subst b1. exists p0. auto. }
  destruct G as [p1 [-> [S1 O1]]]. cbn [bind]. destruct (as_matrix_ok _ _ _ SW) as [S [-> [SR [SC SE]]]]. cbn [bind].
  assert (M : forall q : mat F, ncols q = n -> mat_mul q S = Err ValueError).
  { intros q Q. unfold mat_mul. destruct (Nat.eqb_spec (ncols q) (nrows S)); [congruence|reflexivity]. }
  destruct p0 as [a0|q0]; [|rewrite M by (symmetry; apply O0); reflexivity].
  destruct p1 as [a1|q1]; [|rewrite M by (symmetry; apply O1); reflexivity]. cbn [dense] in S1. rewrite (lin_last_err S a1 b1 n S1); [reflexivity|congruence].
Qed.
(** Likewise a vector of weights for scalar features, and a number for a vector of features. *)
Theorem C28_process_weight_axes : forall (F : fops) (w : weights F) (f : feature F) x0 x1,
  (ft_out f = [] /\ nshape (w_cov w) <> []) \/ (ft_out f <> [] /\ length (nshape (w_cov w)) <> 2) ->
  exists e, pgp_cov w f x0 x1 = Err e.
Proof.
  intros F w f x0 x1 H. assert (E : exists e, pgp_cov_eval w f x0 x1 = Err e).
  2: { destruct E as [e E]. unfold pgp_cov, scalar_call. destruct (check_shapes (ft_in f) x0 x1) as [b|e']; cbn [bind]; [rewrite E; cbn|]; eauto. }
  unfold pgp_cov_eval. destruct H as [[O N]|[O N]].
  - rewrite O. destruct (bind (ft_call f x0) as_array) as [a|e]; cbn [bind]; [|eauto].
    destruct x1 as [x|]; cbn [bind]; [destruct (bind (ft_call f x) as_array) as [a'|e]; cbn [bind]; [|eauto]|];
    (unfold as_matrix, newaxis_front2; cbn [nshape]; destruct (nshape (w_cov w)); [congruence|]; cbn [bind]; eauto).
  - destruct (ft_out f) as [|n o]; [congruence|]. destruct (ft_call f x0) as [a|e]; cbn [bind]; [|eauto].
    destruct x1 as [x|]; cbn [bind]; [destruct (ft_call f x) as [a'|e]; cbn [bind]; [|eauto]|];
    (unfold as_matrix; destruct (nshape (w_cov w)) as [|p [|q [|r l]]]; cbn [bind]; eauto; cbn in N; congruence).
Qed.
(** Exchanging the arguments does not change the covariance. *)
Theorem C28_process_symmetric : forall (F : fops), flaws F -> forall (w : weights F) (f : feature F) n x0 x1 b0 b1 b,
  ft_out f = [n] -> nshape (w_cov w) = [n; n] ->
  (forall k l, k < n -> l < n -> nat_ (w_cov w) [k; l] = nat_ (w_cov w) [l; k]) ->
  nshape x0 = b0 ++ ft_in f -> nshape x1 = b1 ++ ft_in f -> broadcast_shapes b0 b1 = Ok b ->
  exists a a', pgp_cov w f x0 (Some x1) = Ok a /\ pgp_cov w f x1 (Some x0) = Ok a' /\ nd_eq a a'.
Proof.
  intros F LF w f n x0 x1 b0 b1 b O SW SS E0 E1 B.
  destruct (C28_process_covariance F LF w f n x0 (Some x1) b0 b1 b O SW SS E0 E1 B) as [a [Ea [Sa Va]]].
  assert (B' : broadcast_shapes b1 b0 = Ok b) by now rewrite broadcast_sym.
  destruct (C28_process_covariance F LF w f n x1 (Some x0) b1 b0 b O SW SS E1 E0 B') as [a' [Ea' [Sa' Va']]].
  exists a, a'. split; [exact Ea|]. split; [exact Ea'|]. split; [congruence|]. rewrite Sa. intros i Hi. rewrite Va, Va' by exact Hi.
  now apply (bilinear_sym LF).
Qed.
(** Every finite linear combination of values of the process has a non-negative
    variance. *)
Theorem C28_process_psd : forall (w : weights RF) (f : feature RF) n (K : point RF -> point RF -> R),
  ft_out f = [n] -> nshape (w_cov w) = [n; n] ->
  (forall k l, k < n -> l < n -> nat_ (w_cov w) [k; l] = nat_ (w_cov w) [l; k]) ->
  psd_matrix n (fun k l => nat_ (w_cov w) [k; l]) ->
  (forall p q, exists a, pgp_cov w f (Nd (ft_in f) p) (Some (Nd (ft_in f) q)) = Ok a /\ nat_ a [] = K p q) ->
  psd_kernel K.
Proof.
  intros w f n K O SW SS PS HK l.
  assert (EK : forall p q, K p q = bilinear n (fun k l => nat_ (w_cov w) [k; l]) (fun k => ft_val f p [k]) (fun k => ft_val f q [k])).
  { intros p q. destruct (HK p q) as [a [Ea <-]].
    destruct (C28_process_covariance RF RF_laws w f n (Nd (ft_in f) p) (Some (Nd (ft_in f) q)) [] [] [] O SW SS eq_refl eq_refl eq_refl) as [a' [Ea' [_ V]]].
    rewrite Ea in Ea'. injection Ea' as <-. apply (V []). constructor. }
  pose proof (PS (fun k => fsum (map (fun p : R * point RF => fmul (fst p : RF) (ft_val f (snd p) [k])) l))) as P.
  pose proof (bilinear_combo RF_laws n (fun k l => nat_ (w_cov w) [k; l]) (fun p k => ft_val f p [k]) l) as Q.
  match type of P with (0 <= ?r)%R => match goal with |- (0 <= ?s)%R => replace s with r; [exact P|] end end.
  etransitivity; [symmetry; exact Q|]. apply (sum_ext (F := RF)). intros p _. apply (sum_ext (F := RF)). intros q _. now rewrite EK.
Qed.

(** [ParametricCovarianceFunction] computes the same bilinear form of its basis
    functions, for every representation of the covariance matrix. *)
Theorem C28_covfunc : forall (F : fops), flaws F -> forall (f : feature F) (c : covariance F) n h x0 x1 b0 b1 b,
  (forall x, ft_op f x = false) -> ft_out f = [n] -> shows c [n] [n] h ->
  nshape x0 = b0 ++ ft_in f -> nshape (second x0 x1) = b1 ++ ft_in f -> broadcast_shapes b0 b1 = Ok b ->
  exists p a, mk_pcov f c = Ok p /\ pcov_call p x0 x1 = Ok a /\
    array_is a b (fun i => bilinear n (fun k l => h [k] [l])
                             (fun k => ft_val f (pt x0 (operand_index b0 i)) [k])
                             (fun l => ft_val f (pt (second x0 x1) (operand_index b1 i)) [l])).
Proof.
  intros F LF f c n h x0 x1 b0 b1 b P O S E0 E1 B. exists (mkpcov f c). unfold mk_pcov. destruct S as [Q0 [Q1 S]]. rewrite Q1, O, shape_eqb_refl.
  destruct (scalar_call_ok (ft_in f) (pcov_eval (mkpcov f c)) x0 x1 b0 b1 b _ (conj E0 E1) B
    (pcov_eval_ok LF f c n h x0 x1 b0 b1 b P O (conj Q0 (conj Q1 S)) (conj E0 E1) B)) as [a [Ea Ha]].
  exists a. auto.
Qed.
Theorem C28_covfunc_symmetric : forall (F : fops), flaws F -> forall (f : feature F) (c : covariance F) n h p x0 x1 b0 b1 b,
  (forall x, ft_op f x = false) -> ft_out f = [n] -> shows c [n] [n] h ->
  (forall k l, k < n -> l < n -> h [k] [l] = h [l] [k]) -> mk_pcov f c = Ok p ->
  nshape x0 = b0 ++ ft_in f -> nshape x1 = b1 ++ ft_in f -> broadcast_shapes b0 b1 = Ok b ->
  exists a a', pcov_call p x0 (Some x1) = Ok a /\ pcov_call p x1 (Some x0) = Ok a' /\ nd_eq a a'.
Proof.
  intros F LF f c n h p x0 x1 b0 b1 b P O S SS M E0 E1 B.
  destruct (C28_covfunc F LF f c n h x0 (Some x1) b0 b1 b P O S E0 E1 B) as [p1 [a [M1 [Ea [Sa Va]]]]]. rewrite M in M1. injection M1 as <-.
  assert (B' : broadcast_shapes b1 b0 = Ok b) by now rewrite broadcast_sym.
  destruct (C28_covfunc F LF f c n h x1 (Some x0) b1 b0 b P O S E1 E0 B') as [p2 [a' [M2 [Ea' [Sa' Va']]]]]. rewrite M in M2. injection M2 as <-.
  exists a, a'. split; [exact Ea|]. split; [exact Ea'|]. split; [congruence|]. rewrite Sa. intros i Hi. rewrite Va, Va' by exact Hi.
  now apply (bilinear_sym LF).
Qed.
Theorem C28_covfunc_psd : forall (f : feature RF) (c : covariance RF) n h p (K : point RF -> point RF -> R),
  (forall x, ft_op f x = false) -> ft_out f = [n] -> shows c [n] [n] h -> psd_matrix n (fun k l => h [k] [l]) -> mk_pcov f c = Ok p ->
  (forall y z, exists a, pcov_call p (Nd (ft_in f) y) (Some (Nd (ft_in f) z)) = Ok a /\ nat_ a [] = K y z) ->
  psd_kernel K.
Proof.
  intros f c n h p K P O S PS M HK l.
  assert (EK : forall y z, K y z = bilinear n (fun k l => h [k] [l]) (fun k => ft_val f y [k]) (fun k => ft_val f z [k])).
  { intros y z. destruct (HK y z) as [a [Ea <-]].
    destruct (C28_covfunc RF RF_laws f c n h (Nd (ft_in f) y) (Some (Nd (ft_in f) z)) [] [] [] P O S eq_refl eq_refl eq_refl) as [p1 [a' [M1 [Ea' [_ V]]]]].
    rewrite M in M1. injection M1 as <-. rewrite Ea in Ea'. injection Ea' as <-. apply (V []). constructor. }
  pose proof (PS (fun k => fsum (map (fun p : R * point RF => fmul (fst p : RF) (ft_val f (snd p) [k])) l))) as Q1.
  pose proof (bilinear_combo RF_laws n (fun k l => h [k] [l]) (fun p k => ft_val f p [k]) l) as Q.
  match type of Q1 with (0 <= ?r)%R => match goal with |- (0 <= ?s)%R => replace s with r; [exact Q1|] end end.
  etransitivity; [symmetry; exact Q|]. apply (sum_ext (F := RF)). intros y _. apply (sum_ext (F := RF)). intros z _. now rewrite EK.
Qed.
(** The constructor compares only the second shape of the covariance with the basis;
    evaluation rejects a first shape that does not fit. *)
Theorem C28_covfunc_constructor : forall (F : fops) (f : feature F) (c : covariance F),
  cshape1 c <> ft_out f -> mk_pcov f c = Err ValueError.
Proof. intros F f c H. unfold mk_pcov. destruct (shape_eqb_spec (cshape1 c) (ft_out f)); congruence. Qed.
Theorem C28_covfunc_first_shape : forall (F : fops) (f : feature F) (c : covariance F) n m h x0 x1 b0 b1 b,
  (forall x, ft_op f x = false) -> ft_out f = [n] -> shows c [m] [n] h -> m <> n ->
  nshape x0 = b0 ++ ft_in f -> nshape (second x0 x1) = b1 ++ ft_in f -> broadcast_shapes b0 b1 = Ok b ->
  exists p, mk_pcov f c = Ok p /\ pcov_call p x0 x1 = Err ValueError.
Proof.
  intros F f c n m h x0 x1 b0 b1 b P O [_ [Q1 [_ [_ [C [EC [CR [CC CV]]]]]]]] N E0 E1 B. exists (mkpcov f c). unfold mk_pcov. rewrite Q1, O, shape_eqb_refl.
  split; [reflexivity|]. apply (scalar_call_err _ _ _ _ b0 b1 b); [now split|exact B|]. unfold pcov_eval. cbn [pc_basis pc_cov].
  destruct (second_features f x0 x1 b0 b1 (conj E0 E1) P) as [-> G]. cbn [bind]. rewrite G. cbn [bind]. rewrite EC. cbn [bind].
  assert (SZ : forall k, size [k] = k) by (intros; cbn; lia). rewrite SZ in CR, CC.
  destruct (lin_last_ok C (ft_array f b1 (second x0 x1)) b1 n) as [r [-> [Sr Vr]]]; [unfold ft_array; cbn; now rewrite O|assumption|]. cbn [bind].
  apply (inner_last_err _ _ b0 b1 n m); [unfold ft_array; cbn; now rewrite O|now rewrite Sr, CR|congruence].
Qed.
Lemma broadcast_rev_length a : forall b s, broadcast_rev a b = Ok s -> length s = Nat.max (length a) (length b).
Proof.
  induction a as [|x a IH]; intros [|y b] s E; cbn [broadcast_rev] in E; try (injection E as <-; cbn; lia).
  destruct (x =? y), (x =? 1), (y =? 1); try discriminate; (destruct (broadcast_rev a b) as [r|] eqn:E'; [|discriminate]);
    cbn in E; injection E as <-; cbn [length]; rewrite (IH b r E'); cbn [length]; lia.
Qed.
Lemma broadcast_length a b s : broadcast_shapes a b = Ok s -> length s = Nat.max (length a) (length b).
Proof.
  unfold broadcast_shapes. destruct (broadcast_rev (rev a) (rev b)) as [r|] eqn:E; [|discriminate]. cbn. intros [= <-].
  apply broadcast_rev_length in E. rewrite !rev_length in *. exact E.
Qed.
(** A scalar basis function is accepted by the constructor of
    [ParametricCovarianceFunction], but no evaluation ever succeeds. *)
Theorem C28_covfunc_scalar_features_refuted : forall (F : fops) (f : feature F) (c : covariance F) x0 x1,
  ft_out f = [] -> cshape1 c = [] -> exists p, mk_pcov f c = Ok p /\ exists e, pcov_call p x0 x1 = Err e.
Proof.
  intros F f c x0 x1 O C1. exists (mkpcov f c). unfold mk_pcov. rewrite C1, O, shape_eqb_refl. split; [reflexivity|].
  unfold pcov_call, scalar_call. cbn [pc_basis]. unfold check_shapes.
  destruct (batch_shape (ft_in f) x0) as [b0|e] eqn:E0; [|cbn; eauto]. cbn [bind].
  destruct (batch_shape (ft_in f) (second x0 x1)) as [b1|e] eqn:E1; [|cbn; eauto]. cbn [bind].
  destruct (broadcast_shapes b0 b1) as [b|e] eqn:B; [|cbn; eauto]. cbn [bind].
  apply batch_shape_inv in E0, E1. unfold pcov_eval. cbn [pc_basis pc_cov].
  assert (N : forall n, ft_out f <> [n]) by (rewrite O; discriminate).
  rewrite (ft_call_other f b0 x0 E0 N). cbn [bind as_array].
  assert (G : (match x1 with None => Ok (ft_array f b0 x0) | Some x => bind (ft_call f x) as_array end) = Ok (ft_array f b1 (second x0 x1))).
  { destruct x1 as [x|]; cbn [second] in *; [now rewrite (ft_call_other f b1 x E1 N)|]. rewrite E0 in E1. apply app_inv_tail in E1. now subst b1. }
  rewrite G. cbn [bind]. destruct (clinop c) as [C|e]; [|cbn; eauto]. cbn [bind].
  assert (S1 : nshape (ft_array f b1 (second x0 x1)) = b1) by (unfold ft_array; cbn; now rewrite O, app_nil_r).
  assert (S0 : nshape (ft_array f b0 x0) = b0) by (unfold ft_array; cbn; now rewrite O, app_nil_r).
  destruct (lin_last C (ft_array f b1 (second x0 x1))) as [r|e] eqn:L; [|cbn; eauto]. cbn [bind].
  assert (Sr : length (nshape r) = length b1).
  { unfold lin_last, lin_axis in L. rewrite S1 in L. destruct b1 as [|d b1']; [discriminate|]. destruct (_ && _) in L; [|discriminate].
    injection L as <-. cbn [nshape]. rewrite app_length. cbn [length]. rewrite firstn_length, skipn_length. cbn [length]. lia. }
  destruct (inner_last (ft_array f b0 x0) r) as [a|e] eqn:I; [|cbn; eauto]. cbn [bind].
  destruct (shape_eqb_spec (nshape a) b) as [Q|Q]; [|cbn; eauto]. exfalso.
  unfold inner_last in I. rewrite S0 in I. destruct (rev b0) as [|n ra] eqn:R0; [discriminate|]. destruct (rev (nshape r)) as [|m rb] eqn:R1; [discriminate|].
  destruct (n =? m); [|discriminate]. destruct (broadcast_shapes (rev ra) (rev rb)) as [s|] eqn:BB; [|discriminate]. cbn in I. injection I as <-.
  cbn [nshape] in Q. subst s. apply broadcast_length in BB, B. rewrite !rev_length in BB.
  pose proof (f_equal (@length nat) R0) as L0. pose proof (f_equal (@length nat) R1) as L1. rewrite rev_length in L0, L1. cbn [length] in L0, L1. lia.
Qed.
(** Features arranged in a matrix are accepted as well, but cannot be evaluated. *)
Theorem C28_covfunc_matrix_features_refuted : forall (F : fops) (f : feature F) (c : covariance F) n m h x0 x1 b0 b1 b,
  (forall x, ft_op f x = false) -> ft_out f = [n; m] -> shows c [n; m] [n; m] h -> n <> 1 -> m <> 0 ->
  nshape x0 = b0 ++ ft_in f -> nshape (second x0 x1) = b1 ++ ft_in f -> broadcast_shapes b0 b1 = Ok b ->
  exists p, mk_pcov f c = Ok p /\ pcov_call p x0 x1 = Err ValueError.
Proof.
  intros F f c n m h x0 x1 b0 b1 b P O [_ [Q1 [_ [_ [C [EC [CR [CC CV]]]]]]]] Hn Hm E0 E1 B. exists (mkpcov f c). unfold mk_pcov. rewrite Q1, O, shape_eqb_refl.
  split; [reflexivity|]. apply (scalar_call_err _ _ _ _ b0 b1 b); [now split|exact B|]. unfold pcov_eval. cbn [pc_basis pc_cov].
  destruct (second_features f x0 x1 b0 b1 (conj E0 E1) P) as [-> G]. cbn [bind]. rewrite G. cbn [bind]. rewrite EC. cbn [bind].
  rewrite (lin_last_err C _ (b1 ++ [n]) m); [reflexivity| |].
  - unfold ft_array. cbn [nshape]. rewrite O, <- app_assoc. reflexivity.
  - rewrite CC. cbn. nia.
Qed.

(** ** Examples *)
(** Features [1, x] over the rationals; operators for batches of three points. *)
Definition ex_feature (op : bool) : feature QcF :=
  mkfeat [] [2] (fun x k => match k with [1] => x [] | _ => f1 end) (fun x => op && shape_eqb (nshape x) [3]).
Definition ex_weights : weights QcF :=
  mkweights (Nd [2] (fun l => match l with [0] => fnat 5 | _ => fnat 7 end))
            (Nd [2; 2] (fun l => match l with [0; 0] => fnat 2 | [1; 1] => fnat 3 | _ => f1 end)).
Definition ex_points (n : nat) : nd QcF := Nd [n] (fun l => fnat (nth 0 l 0)).
(** [Cov(0..2, 1) = 2 + x + y + 3xy] at [y = 1]: 3, 7, 11 *)
Example C28_ex_operator : forall op, exists a, pgp_cov ex_weights (ex_feature op) (ex_points 3) (Some (Nd [] (fun _ => f1))) = Ok a /\
  nshape a = [3] /\ map (fun i => nat_ a [i]) [0; 1; 2] = [fnat 3; fnat 7; fnat 11].
Proof. intros [|]; eexists; split; try reflexivity; split; vm_compute; reflexivity. Qed.
Example C28_ex_operator_second : forall op, exists a, pgp_cov ex_weights (ex_feature op) (Nd [1] (fun _ => f1)) (Some (ex_points 3)) = Ok a /\
  nshape a = [3] /\ map (fun i => nat_ a [i]) [0; 1; 2] = [fnat 3; fnat 7; fnat 11].
Proof. intros [|]; eexists; split; try reflexivity; split; vm_compute; reflexivity. Qed.
Example C28_ex_mean : forall op, exists a, pgp_mean ex_weights (ex_feature op) (ex_points 3) = Ok a /\
  nshape a = [3] /\ map (fun i => nat_ a [i]) [0; 1; 2] = [fnat 5; fnat 12; fnat 19].
Proof. intros [|]; eexists; split; try reflexivity; split; vm_compute; reflexivity. Qed.
Example C28_ex_covfunc : exists c p a, array_cov (w_cov ex_weights) [2] [2] = Ok c /\ mk_pcov (ex_feature false) c = Ok p /\
  pcov_call p (ex_points 3) None = Ok a /\ nshape a = [3] /\ map (fun i => nat_ a [i]) [0; 1; 2] = [fnat 2; fnat 7; fnat 18].
Proof. do 3 eexists. split; [reflexivity|]. split; [reflexivity|]. split; [reflexivity|]. split; vm_compute; reflexivity. Qed.
(** The hypotheses on the weights can be met. *)
Example C28_ex_psd : psd_matrix 2 (fun k l => match k, l with 0, 0 => 2%R | 1, 1 => 3%R | _, _ => 1%R end).
Proof. intros w. unfold bilinear, fsum. cbn. generalize (w 0) (w 1). intros a b. change (car RF) with R in *. nra. Qed.

Print Assumptions C28_process_covariance.
Print Assumptions C28_process_psd.
Print Assumptions C28_covfunc.
Print Assumptions C28_covfunc_scalar_features_refuted.
