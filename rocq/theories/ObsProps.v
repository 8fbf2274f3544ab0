(** C26: arguments of conditioning. *)
From Coq Require Import List Arith Bool Lia.
From Verif Require Import Base NdArray NdData ObsModel ObsSpec ObsProofs.
Import ListNotations.

(** Accepted exactly when the points and the functional determine a measurement,
    the noise has its shape, and so have the observations. *)
Theorem C26_accepted : forall (F : fops) pin pout (Y : nd F) X L b Lm LkL,
  (exists p, preprocess pin pout Y X L b Lm LkL = Ok p) <->
  exists out e, measures pin pout X L out e /\ noise_fits out b /\ wanted pout out e (nshape Y).
Proof. exact @accepts. Qed.
(** The exceptions. *)
Theorem C26_errors : forall (F : fops) pin pout (Y : nd F) X L b Lm LkL x, preprocess pin pout Y X L b Lm LkL = Err x ->
  match L, X with
  | LFunctional _ _, Some _ => x = TypeError
  | LOther, _ => x = TypeError
  | LOperator _ _, None => x = ValueError
  | LNone, None => x = ValueError
  | LOperator od _, Some xs => (x = AssertionError /\ ~ exists b, xs = b ++ od) \/ (b = Some BOther /\ x = TypeError) \/ x = ValueError
  | LNone, Some xs => (x = AssertionError /\ ~ exists b, xs = b ++ pin) \/ (b = Some BOther /\ x = TypeError) \/ x = ValueError
  | LFunctional _ _, None => (b = Some BOther /\ x = TypeError) \/ x = ValueError
  end.
Proof. exact @errors. Qed.
Theorem C26_noise_type : forall (F : fops) pin pout (Y : nd F) X L Lm LkL out e, measures pin pout X L out e ->
  preprocess pin pout Y X L (Some BOther) Lm LkL = Err TypeError.
Proof. exact @bad_noise. Qed.
(** Observations through a functional or operator are flattened in C order. *)
Theorem C26_data_vector : forall (F : fops) pin pout (Y : nd F) X L b Lm LkL p out, measures pin pout X L out false ->
  preprocess pin pout Y X L b Lm LkL = Ok p -> nshape (pr_Y p) = [size out] /\
  forall i, valid_index out i -> nat_ (pr_Y p) [ravel out i] = nat_ Y i.
Proof. exact @data_vector. Qed.
(** Values at points are given points first and stored outputs first. *)
Theorem C26_data_at_points : forall (F : fops) pin pout (Y : nd F) batch b Lm LkL p,
  preprocess pin pout Y (Some (batch ++ pin)) LNone b Lm LkL = Ok p ->
  nshape (pr_Y p) = [size (pout ++ batch)] /\
  forall i j, valid_index batch i -> valid_index pout j -> nat_ (pr_Y p) [ravel (pout ++ batch) (j ++ i)] = nat_ Y (i ++ j).
Proof. exact @data_points. Qed.
(** Noise adds to the predictive mean and to the Gram matrix. *)
Theorem C26_noise_added : forall (F : fops), flaws F -> forall pin pout (Y : nd F) X L b Lm LkL p out e,
  measures pin pout X L out e -> preprocess pin pout Y X L b Lm LkL = Ok p -> nshape Lm = out ->
  (forall i, valid_index out i -> nat_ (pr_mean p) [ravel out i] = fadd (nat_ Lm i) (bmean b i)) /\
  (forall i j, pr_gram p i j = fadd (LkL i j) (bcov b i j)).
Proof. exact @noise_added. Qed.
(** The layout differs between values at points given as [X] alone and values of
    an operator (even the identity) at the same points: for two outputs and three
    points the first wants the shape (3, 2), the second (2, 3). *)
Theorem C26_layout_depends_on_L_refuted : exists (Y : nd QcF),
  (exists p, preprocess [] [2] Y (Some [3]) LNone None Y (fun _ _ => f0) = Ok p) /\
  preprocess [] [2] Y (Some [3]) (LOperator [] [2]) None Y (fun _ _ => f0) = Err ValueError.
Proof. exists (Nd [3; 2] (fun _ => f0)). split; [eexists|]; reflexivity. Qed.
(** And the noise of values at points is wanted outputs first, unlike the values. *)
Theorem C26_noise_layout_refuted : exists (Y b : nd QcF), nshape Y = nshape b /\
  preprocess [] [2] Y (Some [3]) LNone (Some (BNormal b (fun _ _ => f0))) Y (fun _ _ => f0) = Err ValueError.
Proof. exists (Nd [3; 2] (fun _ => f0)), (Nd [3; 2] (fun _ => f0)). split; reflexivity. Qed.
(** Two outputs at three points with noise. *)
Example C26_example : exists p,
  preprocess (F := QcF) [] [2] (Nd [3; 2] (fun i => fnat (ravel [3; 2] i))) (Some [3]) LNone
    (Some (BConstant (Nd [2; 3] (fun _ => f1)))) (Nd [2; 3] (fun _ => f0)) (fun _ _ => f0) = Ok p /\
  nat_ (pr_Y p) [4] = fnat 3 /\ nat_ (pr_mean p) [4] = f1.
Proof. eexists. split; [reflexivity|]. split; vm_compute; reflexivity. Qed.

Print Assumptions C26_accepted. Print Assumptions C26_errors. Print Assumptions C26_noise_type.
Print Assumptions C26_data_vector. Print Assumptions C26_data_at_points. Print Assumptions C26_noise_added.
Print Assumptions C26_layout_depends_on_L_refuted. Print Assumptions C26_noise_layout_refuted.
