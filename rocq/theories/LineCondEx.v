(** An example for C60: the value at 1/2 and the integrals over [0, 1] and [1, 3]; the prior
    covariance is the sum of a Matérn 3/2 and a squared exponential. *)
From Coq Require Import List Reals Lra Lia.
From Coquelicot Require Import Coquelicot.
From Verif Require Import Base NdArray FunExprModel KernelModel IntegralModel KernelSpec PdeCondSpec LineStrict PointStrict ObsPsdProps.
Import ListNotations.
Open Scope R_scope.

Definition lex_k : cov := CSum [CScaled 2 (CMat (Matern [] (fun _ => 3) (HalfInt 1))); CExp (ExpQuad [] (fun _ => 1))].
Definition lex_obs (i : nat) : iobs := match i with 0%nat => Value (/ 2) | 1%nat => Integral 0 1 | _ => Integral 1 3 end.
Lemma lex_prior : line_prior lex_k.
Proof. apply LPSum. intros k' [<-|[<-|[]]]; [apply LPScaled; [lra|]; apply (LPMat _ 1); cbn; auto; lra|now apply LPExp]. Qed.
Lemma lex_strict : line_strict lex_k.
Proof.
  apply (LSSum (CScaled 2 (CMat (Matern [] (fun _ => 3) (HalfInt 1))))).
  - intros k' [<-|[<-|[]]]; [apply LPScaled; [lra|]; apply (LPMat _ 1); cbn; auto; lra|now apply LPExp].
  - now left.
  - apply LSScaled; [lra|]. apply (LSMat _ 1); cbn; auto. lra.
Qed.
Lemma lex_gram i j : exists c, icov lex_k (lex_obs i) (lex_obs j) = Ok c.
Proof. destruct i as [|[|i]], j as [|[|j]]; cbn [lex_obs icov]; eexists; reflexivity. Qed.
(** For [C60_points]: points in the plane. *)
Definition lex_mat : cov := CSum [CMat (Matern [2%nat] (fun _ => 3) (HalfInt 2)); CScaled 2 (CExp (ExpQuad [2%nat] (fun _ => 1)))].
Definition lex_pts (i : nat) : array := fun _ => INR i.
Lemma lex_points : point_strict [2%nat] lex_mat.
Proof.
  apply (PSSum _ (CMat (Matern [2%nat] (fun _ => 3) (HalfInt 2)))).
  - intros k' [<-|[<-|[]]].
    + apply point_strict_prior, (PSMat _ _ 2); [reflexivity..|intros i _; cbn; lra].
    + apply point_strict_prior, PSScaled; [lra|]. apply PSExp; [reflexivity..|intros i _; cbn; lra].
  - now left.
  - apply (PSMat _ _ 2); [reflexivity..|intros i _; cbn; lra].
Qed.
Lemma lex_distinct i j : i <> j -> ~ agree [2%nat] (lex_pts i) (lex_pts j).
Proof. intros N A. apply N, INR_eq. apply (A [0%nat]). repeat constructor. Qed.
(** The value and the integrals are independent: test with 1, x and x^2. *)
Lemma pow_smooth n : smooth_line (fun x => x ^ n).
Proof. intros m x. apply ex_derive_n_pow. Qed.
Lemma ex_pow1 n x : ex_derive (fun t : R => 1 * t ^ n) x.
Proof. auto_derive. exact I. Qed.
Lemma int_pow2 n a b : RInt (fun t => 1 * (2 * t ^ n)) a b = 2 * RInt (fun t => 1 * t ^ n) a b.
Proof.
  rewrite <- (RInt_scal (V := R_CompleteNormedModule) (fun t => 1 * t ^ n)).
  - apply RInt_ext. intros x _. change (1 * (2 * x ^ n) = 2 * (1 * x ^ n)). ring.
  - apply (ex_RInt_continuous (V := R_CompleteNormedModule)). intros z _. apply (ex_derive_continuous (fun t => 1 * t ^ n)), ex_pow1.
Qed.
Lemma int_pow n a b : RInt (fun t => 1 * t ^ n) a b = b ^ (S n) / INR (S n) - a ^ (S n) / INR (S n).
Proof.
  apply is_RInt_unique.
  evar (l : R). replace (b ^ S n / INR (S n) - a ^ S n / INR (S n)) with l; [refine (is_RInt_derive (fun t => t ^ S n / INR (S n)) _ a b _ _)|subst l; reflexivity].
  - intros x _. auto_derive; [exact I|]. change (match n with 0%nat => 1 | S _ => INR n + 1 end) with (INR (S n)). field. apply not_0_INR. lia.
  - intros x _. apply (ex_derive_continuous (fun t => 1 * t ^ n)). auto_derive. exact I.
Qed.
Lemma lex_system a b c : (forall n, a * (2 * (/ 2) ^ n) + (b * (2 * RInt (fun t => 1 * t ^ n) 0 1) + c * (2 * RInt (fun t => 1 * t ^ n) 1 3)) = 0) -> a = 0 /\ b = 0 /\ c = 0.
Proof.
  intros H. pose proof (H 0%nat) as H0. pose proof (H 1%nat) as H1. pose proof (H 2%nat) as H2.
  rewrite !int_pow in H0, H1, H2. cbn in H0, H1, H2. lra.
Qed.
