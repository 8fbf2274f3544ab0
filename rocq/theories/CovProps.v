(** C18: array and matrix views of covariances. *)
From Coq Require Import List Arith ZArith QArith Qcanon.
From Verif Require Import Base NdArray NdData BlockModel CovModel CovSpec CovProofs.
Import ListNotations.
Local Open Scope nat_scope.

(** Construction from an array and from a matrix: accepted exactly for fitting
    shapes, and all views then show the same entries, in C order. *)
Theorem C18_array : forall (F : fops) (a : nd F) s0 s1,
  (nshape a = s0 ++ s1 -> exists c, array_cov a s0 s1 = Ok c /\ shows c s0 s1 (fun i j => nat_ a (i ++ j))) /\
  (nshape a <> s0 ++ s1 -> array_cov a s0 s1 = Err ValueError).
Proof. split; [apply array_cov_shows|apply array_cov_err]. Qed.
Theorem C18_linop : forall (F : fops) (l : mat F) s0 s1,
  (forall g, matrix_shows l s0 s1 g -> exists c, linop_cov l s0 s1 = Ok c /\ shows c s0 s1 g) /\
  (nrows l <> size s0 \/ ncols l <> size s1 -> linop_cov l s0 s1 = Err ValueError).
Proof. split; [apply linop_cov_shows|apply linop_cov_err]. Qed.
Theorem C18_from_scalar : forall (F : fops) (v : F), exists c, from_scalar v = Ok c /\ shows c [] [] (fun _ _ => v).
Proof. intros F v. exact (array_cov_shows (Nd [] (fun _ => v)) [] [] eq_refl). Qed.
(** Changing the representation back and forth loses nothing. *)
Theorem C18_roundtrip_array : forall (F : fops) c s0 s1 (g : index -> index -> F), shows c s0 s1 g ->
  exists m c' a a', cmatrix c = Ok m /\ linop_cov m s0 s1 = Ok c' /\ carray c = Ok a /\ carray c' = Ok a' /\ nd_eq a' a.
Proof. exact @matrix_via_linop. Qed.
Theorem C18_roundtrip_matrix : forall (F : fops) c s0 s1 (g : index -> index -> F), shows c s0 s1 g ->
  exists a c' m m', carray c = Ok a /\ array_cov a s0 s1 = Ok c' /\ cmatrix c = Ok m /\ cmatrix c' = Ok m' /\
    nrows m' = nrows m /\ ncols m' = ncols m /\ forall p q, p < nrows m -> q < ncols m -> entry m' p q = entry m p q.
Proof. exact @array_via_array. Qed.
(** Arithmetic acts entry by entry on both views, for all four combinations of
    representations. *)
Theorem C18_add : forall (F : fops), flaws F -> forall c d s0 s1 (g h : index -> index -> F),
  shows c s0 s1 g -> shows d s0 s1 h ->
  exists r, cadd c d = Ok r /\ shows r s0 s1 (fun i j => fadd (g i j) (h i j)).
Proof. exact @cadd_shows. Qed.
Theorem C18_add_mismatch : forall (F : fops) (c d : covariance F),
  cshape0 c <> cshape0 d \/ cshape1 c <> cshape1 d -> cadd c d = Err TypeError.
Proof. exact @cadd_err. Qed.
Theorem C18_sub : forall (F : fops), flaws F -> forall c d s0 s1 (g h : index -> index -> F),
  shows c s0 s1 g -> shows d s0 s1 h ->
  exists r, csub c d = Ok r /\ shows r s0 s1 (fun i j => fsub (g i j) (h i j)).
Proof. exact @csub_shows. Qed.
Theorem C18_neg : forall (F : fops), flaws F -> forall c s0 s1 (g : index -> index -> F), shows c s0 s1 g ->
  exists r, cneg c = Ok r /\ shows r s0 s1 (fun i j => fopp (g i j)).
Proof. exact @cneg_shows. Qed.
Theorem C18_scale : forall (F : fops) (t : F) c s0 s1 g, shows c s0 s1 g ->
  exists r, crmul (Nd [] (fun _ => t)) c = Ok r /\ shows r s0 s1 (fun i j => fmul t (g i j)).
Proof. exact @crmul_shows. Qed.
Theorem C18_scale_by_array : forall (F : fops) (t : nd F) c, nshape t <> [] -> crmul t c = Err TypeError.
Proof. exact @crmul_err. Qed.
(** Events are flattened in the same order. *)
Theorem C18_flatten : forall (F : fops) c (e : nd F),
  (nshape e = cshape0 c -> exists v, flatten0 c e = Ok v /\ nshape v = [size (cshape0 c)] /\
     forall i, valid_index (cshape0 c) i -> nat_ v [ravel (cshape0 c) i] = nat_ e i) /\
  (nshape e <> cshape0 c -> flatten0 c e = Err ValueError) /\
  (nshape e = cshape1 c -> exists v, flatten1 c e = Ok v /\ nshape v = [size (cshape1 c)] /\
     forall i, valid_index (cshape1 c) i -> nat_ v [ravel (cshape1 c) i] = nat_ e i) /\
  (nshape e <> cshape1 c -> flatten1 c e = Err ValueError).
Proof. repeat split; [apply flatten0_ok|apply flatten0_err|apply flatten1_ok|apply flatten1_err]. Qed.
Print Assumptions C18_array. Print Assumptions C18_linop. Print Assumptions C18_from_scalar.
Print Assumptions C18_roundtrip_array. Print Assumptions C18_roundtrip_matrix.
Print Assumptions C18_add. Print Assumptions C18_add_mismatch. Print Assumptions C18_sub.
Print Assumptions C18_neg. Print Assumptions C18_scale. Print Assumptions C18_scale_by_array. Print Assumptions C18_flatten.

(** A 2x3 by 2 covariance: position (4, 1) of the matrix is array entry [1; 1; 1]. *)
Definition ex_cov_array : nd QcF :=
  Nd [2; 3; 2] (fun i => match i with [a; b; c] => Q2Qc (inject_Z (Z.of_nat (100 * a + 10 * b + c))) | _ => 0%Qc end).
Example C18_example : exists c m, array_cov ex_cov_array [2; 3] [2] = Ok c /\ cmatrix c = Ok m /\
  nrows m = 6 /\ ncols m = 2 /\ entry m 4 1 = nat_ ex_cov_array [1; 1; 1].
Proof. do 2 eexists. repeat split; reflexivity. Qed.
