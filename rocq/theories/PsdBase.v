(** Positive semidefinite kernels: closure under sums, scalings, limits and integrals; the
    Gaussian kernels. *)
From Coq Require Import List Arith Lia Reals Lra.
From Coquelicot Require Import Coquelicot.
From Verif Require Import Base ParamSpec ParamProofs TensorSpec TensorSchur.
Import ListNotations.
Open Scope R_scope.

Section Closure.
Context {X : Type}.
Implicit Types (K : X -> X -> R).
Lemma form_add K K' l : form (fun x y => K x y + K' x y) l = form K l + form K' l.
Proof.
  unfold form. rewrite <- sumR_add. apply sumR_ext. intros p _. rewrite <- sumR_add. apply sumR_ext. intros q _. ring.
Qed.
Lemma form_scal c K l : form (fun x y => c * K x y) l = c * form K l.
Proof.
  unfold form. rewrite sumR_scal. apply sumR_ext. intros p _. rewrite sumR_scal. apply sumR_ext. intros q _. ring.
Qed.
Lemma psd_add K K' : psd_kernel K -> psd_kernel K' -> psd_kernel (fun x y => K x y + K' x y : car RF).
Proof. intros H H' l. change (0 <= form (fun x y => K x y + K' x y) l). rewrite form_add. apply Rplus_le_le_0_compat; [apply H|apply H']. Qed.
Lemma psd_scal c K : 0 <= c -> psd_kernel K -> psd_kernel (fun x y => c * K x y : car RF).
Proof. intros Hc H l. change (0 <= form (fun x y => c * K x y) l). rewrite form_scal. apply Rmult_le_pos; [exact Hc|apply H]. Qed.
Lemma psd_zero : psd_kernel (fun _ _ : X => 0 : car RF).
Proof.
  intros l. change (0 <= form (fun _ _ => 0) l). unfold form. apply sumR_nonneg. intros p _. apply sumR_nonneg. intros q _. lra.
Qed.
Lemma psd_rank1 (f : X -> R) : psd_kernel (fun x y => f x * f y : car RF).
Proof.
  intros l. change (0 <= form (fun x y => f x * f y) l). unfold form.
  assert (E : sumR (fun p => sumR (fun q => fst p * fst q * (f (snd p) * f (snd q))) l) l = (sumR (fun p => fst p * f (snd p)) l) ^ 2).
  { simpl pow. rewrite Rmult_1_r, sumR_scal_r. apply sumR_ext. intros p _. rewrite sumR_scal. apply sumR_ext. intros q _. ring. }
  rewrite E. apply pow2_ge_0.
Qed.
(** Multiplication by one feature. *)
Lemma psd_feature (f : X -> R) K : psd_kernel K -> psd_kernel (fun x y => f x * f y * K x y : car RF).
Proof.
  intros H l. change (0 <= form (fun x y => f x * f y * K x y) l).
  assert (E : form (fun x y => f x * f y * K x y) l = form K (map (fun p => (fst p * f (snd p), snd p)) l)).
  { unfold form. rewrite sumR_map. apply sumR_ext. intros p _. rewrite sumR_map. apply sumR_ext. intros q _. cbn [fst snd]. ring. }
  rewrite E. apply H.
Qed.
Lemma psd_sumR {A} (g : A -> X -> X -> R) (s : list A) : (forall a, In a s -> psd_kernel (g a : X -> X -> RF)) ->
  psd_kernel (fun x y => sumR (fun a => g a x y) s : car RF).
Proof.
  induction s as [|a s IH]; intros H; [apply psd_zero|].
  apply (psd_ext (fun x y => g a x y + sumR (fun a => g a x y) s : car RF)); [reflexivity|].
  apply psd_add; [apply H; now left|apply IH; intros b Hb; apply H; now right].
Qed.

(** Limits *)
Lemma sumR_lim {A} (f : nat -> A -> R) (g : A -> R) (s : list A) : (forall a, In a s -> is_lim_seq (fun n => f n a) (g a)) ->
  is_lim_seq (fun n => sumR (f n) s) (sumR g s).
Proof.
  induction s as [|a s IH]; intros H; [apply is_lim_seq_const|].
  apply (is_lim_seq_ext (fun n => f n a + sumR (f n) s)); [reflexivity|]. rewrite sumR_cons.
  apply is_lim_seq_plus'; [apply H; now left|apply IH; intros b Hb; apply H; now right].
Qed.
Lemma form_lim (Kn : nat -> X -> X -> R) K l : (forall x y, is_lim_seq (fun n => Kn n x y) (K x y)) ->
  is_lim_seq (fun n => form (Kn n) l) (form K l).
Proof.
  intros H. unfold form. apply (sumR_lim (fun n p => sumR (fun q => fst p * fst q * Kn n (snd p) (snd q)) l)). intros p _.
  apply (sumR_lim (fun n q => fst p * fst q * Kn n (snd p) (snd q))). intros q _.
  apply (is_lim_seq_scal_l _ (fst p * fst q) (K (snd p) (snd q))). apply H.
Qed.
Lemma lim_nonneg (u : nat -> R) (a : R) : (forall n, 0 <= u n) -> is_lim_seq u a -> 0 <= a.
Proof. intros H L. apply (is_lim_seq_le (fun _ => 0) u 0 a H (is_lim_seq_const 0) L). Qed.
Lemma psd_lim (Kn : nat -> X -> X -> R) K : (forall n, psd_kernel (Kn n : X -> X -> RF)) ->
  (forall x y, is_lim_seq (fun n => Kn n x y) (K x y)) -> psd_kernel (K : X -> X -> RF).
Proof. intros H L l. apply (lim_nonneg (fun n => form (Kn n) l)); [intros n; apply H|now apply form_lim]. Qed.

(** Integrals *)
Lemma sumR_RInt {A} (f : R -> A -> R) (s : list A) a b : (forall x, In x s -> ex_RInt (fun u => f u x) a b) ->
  is_RInt (fun u => sumR (f u) s) a b (sumR (fun x => RInt (fun u => f u x) a b) s).
Proof.
  induction s as [|x s IH]; intros H.
  - assert (Z := is_RInt_const a b 0). unfold scal in Z. cbn in Z. unfold mult in Z. cbn in Z. rewrite Rmult_0_r in Z. exact Z.
  - rewrite sumR_cons. apply (is_RInt_plus (V := R_NormedModule) (fun u => f u x) (fun u => sumR (f u) s)).
    + apply (RInt_correct (V := R_CompleteNormedModule)). apply H. now left.
    + apply IH. intros y Hy. apply H. now right.
Qed.
Lemma psd_RInt (Ku : R -> X -> X -> R) a b : a <= b -> (forall u, a < u < b -> psd_kernel (Ku u : X -> X -> RF)) ->
  (forall x y, ex_RInt (fun u => Ku u x y) a b) -> psd_kernel (fun x y => RInt (fun u => Ku u x y) a b : car RF).
Proof.
  intros Hab H E l. change (0 <= form (fun x y => RInt (fun u => Ku u x y) a b) l).
  assert (I : is_RInt (fun u => form (Ku u) l) a b (form (fun x y => RInt (fun u => Ku u x y) a b) l)).
  { unfold form.
    assert (G : forall p q : R * X, is_RInt (fun u => fst p * fst q * Ku u (snd p) (snd q)) a b (fst p * fst q * RInt (fun u => Ku u (snd p) (snd q)) a b)).
    { intros p q. apply (is_RInt_scal (V := R_NormedModule)). apply (RInt_correct (V := R_CompleteNormedModule)). apply E. }
    assert (G' : forall p : R * X, is_RInt (fun u => sumR (fun q => fst p * fst q * Ku u (snd p) (snd q)) l) a b
        (sumR (fun q => fst p * fst q * RInt (fun u => Ku u (snd p) (snd q)) a b) l)).
    { intros p. rewrite (sumR_ext (fun q => fst p * fst q * RInt (fun u => Ku u (snd p) (snd q)) a b) (fun q => RInt (fun u => fst p * fst q * Ku u (snd p) (snd q)) a b)).
      2: { intros q _. symmetry. apply is_RInt_unique. apply G. }
      apply (sumR_RInt (fun u q => fst p * fst q * Ku u (snd p) (snd q))). intros q _. eexists. apply G. }
    rewrite (sumR_ext (fun p => sumR (fun q => fst p * fst q * RInt (fun u => Ku u (snd p) (snd q)) a b) l) (fun p => RInt (fun u => sumR (fun q => fst p * fst q * Ku u (snd p) (snd q)) l) a b)).
    2: { intros p _. symmetry. apply is_RInt_unique. apply G'. }
    apply (sumR_RInt (fun u p => sumR (fun q => fst p * fst q * Ku u (snd p) (snd q)) l)). intros p _. eexists. apply G'. }
  rewrite <- (is_RInt_unique _ _ _ _ I). apply RInt_ge_0; [exact Hab|eexists; exact I|]. intros u Hu. apply (H u Hu l).
Qed.

(** Powers of an inner product and its exponential *)
Lemma psd_exp K : sym K -> psd_kernel (K : X -> X -> RF) -> psd_kernel (fun x y => exp (K x y) : car RF).
Proof.
  intros Sy H.
  assert (P : forall n, psd_kernel (fun x y => K x y ^ n : car RF)).
  { induction n as [|n IH]; [apply psd_one|]. apply (psd_ext (fun x y => K x y * K x y ^ n : car RF)); [reflexivity|]. now apply schur. }
  apply (psd_lim (fun n x y => sum_n (fun k => K x y ^ k * / INR (fact k)) n)).
  - intros n. induction n as [|n IH].
    + apply (psd_ext (fun _ _ => 1 : car RF)); [|apply psd_one]. intros x y. rewrite sum_O. cbn. field.
    + apply (psd_ext (fun x y => sum_n (fun k => K x y ^ k * / INR (fact k)) n + / INR (fact (S n)) * K x y ^ S n : car RF)).
      * intros x y. rewrite sum_Sn. unfold plus. cbn [AbelianGroup.plus]. cbn -[fact pow INR]. now rewrite (Rmult_comm (/ _)).
      * apply psd_add; [exact IH|]. apply psd_scal; [|apply P]. left. apply Rinv_0_lt_compat. apply INR_fact_lt_0.
  - intros x y. pose proof (is_exp_Reals (K x y)) as E. unfold is_pseries in E.
    apply (is_lim_seq_ext (sum_n (fun k => scal (pow_n (K x y) k) (/ INR (fact k))))); [|exact E].
    intros n. apply sum_n_ext. intros k. unfold scal. cbn. unfold mult. cbn. now rewrite pow_n_pow.
Qed.
End Closure.

(** [exp (- sum_i (w_i (x_i - y_i))^2)] on points with finitely many coordinates *)
Section Gauss.
Context {I : Type} (s : list I).
Definition sqdist (w x y : I -> R) : R := sumR (fun i => (w i * (x i - y i)) ^ 2) s.
Lemma sqdist_sym w x y : sqdist w x y = sqdist w y x.
Proof. apply sumR_ext. intros i _. ring. Qed.
Lemma sqdist_nonneg w x y : 0 <= sqdist w x y.
Proof. apply sumR_nonneg. intros i _. apply pow2_ge_0. Qed.
Lemma gauss_psd w c : 0 <= c -> psd_kernel (fun x y : I -> R => exp (- c * sqdist w x y) : car RF).
Proof.
  intros Hc. set (q := fun x : I -> R => exp (- c * sumR (fun i => (w i * x i) ^ 2) s)).
  set (b := fun x y : I -> R => 2 * c * sumR (fun i => (w i * x i) * (w i * y i)) s).
  apply (psd_ext (fun x y => q x * q y * exp (b x y) : car RF)).
  - intros x y. unfold q, b, sqdist. cbn [car RF]. rewrite <- !exp_plus. f_equal.
    rewrite (sumR_ext (fun i => (w i * (x i - y i)) ^ 2) (fun i => (w i * x i) ^ 2 + ((w i * y i) ^ 2 + (-2) * (w i * x i * (w i * y i))))) by (intros; ring).
    rewrite !sumR_add, <- sumR_scal. ring.
  - apply psd_feature. apply psd_exp.
    + intros x y. unfold b. f_equal. apply sumR_ext. intros i _. ring.
    + unfold b. apply (psd_scal (2 * c)); [lra|]. apply psd_sumR. intros i _. apply (psd_rank1 (fun x : I -> R => w i * x i)).
Qed.
End Gauss.
