(** Derivatives of kernels that depend on the difference of their arguments. *)
From Coq Require Import List Reals Lra Lia Bool Arith FunctionalExtensionality.
From Coquelicot Require Import Coquelicot.
From Verif Require Import Base NdArray FunExprModel DiffopModel DiffopSpec DiffopProofs LfoModel LfoSpec LfoSmooth KernelModel KernelSpec.
Import ListNotations.
Open Scope R_scope.

Definition dsgn (a : nat) : R := match a with O => 1 | _ => -1 end.
(** [dG] is the gradient of [G] in the coordinates of [sh]. *)
Definition grad (sh : shape) (G : array -> R) (dG : index -> array -> R) : Prop :=
  forall i, In i (all_indices sh) -> forall d : array, is_derive (fun t => G (upd d i t)) (d i) (dG i d).

Lemma upd_same (x : array) i t : upd x i t i = t.
Proof. unfold upd. destruct (list_eq_dec Nat.eq_dec i i); congruence. Qed.
Lemma upd_other (x : array) i j t : j <> i -> upd x i t j = x j.
Proof. unfold upd. destruct (list_eq_dec Nat.eq_dec j i); congruence. Qed.
Lemma vdiff_upd0 (x0 x1 : array) i t : vdiff (upd x0 i t) x1 = upd (vdiff x0 x1) i (t - x1 i).
Proof. extensionality j. unfold vdiff, upd. destruct (list_eq_dec Nat.eq_dec j i) as [->|]; reflexivity. Qed.
Lemma vdiff_upd1 (x0 x1 : array) i t : vdiff x0 (upd x1 i t) = upd (vdiff x0 x1) i (x0 i - t).
Proof. extensionality j. unfold vdiff, upd. destruct (list_eq_dec Nat.eq_dec j i) as [->|]; reflexivity. Qed.

Lemma pd_vdiff0 sh G dG (x1 : array) i : grad sh G dG -> In i (all_indices sh) ->
  pd i (fun x => G (vdiff x x1)) = (fun x => dG i (vdiff x x1)).
Proof.
  intros H I. extensionality x. unfold pd. apply is_derive_unique.
  apply is_derive_ext with (f := fun t => G (upd (vdiff x x1) i (t - x1 i))).
  { intros t. now rewrite vdiff_upd0. }
  replace (dG i (vdiff x x1)) with (scal 1 (dG i (vdiff x x1))) by (unfold scal; simpl; unfold mult; simpl; ring).
  apply (is_derive_comp (fun u => G (upd (vdiff x x1) i u)) (fun t => t - x1 i) (x i) (dG i (vdiff x x1)) 1).
  - exact (H i I (vdiff x x1)).
  - auto_derive; [trivial|ring].
Qed.
Lemma pd_vdiff1 sh G dG (x0 : array) i : grad sh G dG -> In i (all_indices sh) ->
  pd i (fun x => G (vdiff x0 x)) = (fun x => - dG i (vdiff x0 x)).
Proof.
  intros H I. extensionality x. unfold pd. apply is_derive_unique.
  apply is_derive_ext with (f := fun t => G (upd (vdiff x0 x) i (x0 i - t))).
  { intros t. now rewrite vdiff_upd1. }
  replace (- dG i (vdiff x0 x)) with (scal (-1) (dG i (vdiff x0 x))) by (unfold scal; simpl; unfold mult; simpl; ring).
  apply (is_derive_comp (fun u => G (upd (vdiff x0 x) i u)) (fun t => x0 i - t) (x i) (dG i (vdiff x0 x)) (-1)).
  - exact (H i I (vdiff x0 x)).
  - auto_derive; [trivial|ring].
Qed.

(** The operators acting on either argument. *)
Lemma dir_vdiff sh v G dG a (x0 x1 : array) : grad sh G dG ->
  in_arg a (dsem (DDir sh v)) (fun x y => G (vdiff x y)) x0 x1
  = dsgn a * total (map (fun i => v i * dG i (vdiff x0 x1)) (all_indices sh)).
Proof.
  intros H. unfold in_arg, dsgn. destruct a; cbn [dsem].
  - rewrite Rmult_1_l. apply total_ext. intros i I. now rewrite (pd_vdiff0 sh G dG).
  - rewrite <- total_mult. apply total_ext. intros i I. rewrite (pd_vdiff1 sh G dG) by assumption. ring.
Qed.
Lemma lap_vdiff b sh w G dG ddG a (x0 x1 : array) : grad sh G dG ->
  (forall i, In i (all_indices sh) -> grad sh (dG i) (ddG i)) ->
  in_arg a (dsem (DLap b sh w)) (fun x y => G (vdiff x y)) x0 x1
  = total (map (fun i => w i * ddG i i (vdiff x0 x1)) (all_indices sh)).
Proof.
  intros H H2. unfold in_arg. destruct a; cbn [dsem]; apply total_ext; intros i I.
  - rewrite (pd_vdiff0 sh G dG) by assumption. now rewrite (pd_vdiff0 sh (dG i) (ddG i)) by (try apply H2; assumption).
  - rewrite (pd_vdiff1 sh G dG) by assumption.
    rewrite (pd_vdiff1 sh (fun d => - dG i d) (fun j d => - ddG i j d)); [ring| |exact I].
    intros j Ij d. apply @is_derive_opp. now apply H2.
Qed.

(** Gradients of sums over the coordinates. *)
Lemma upd_id (d : array) i : upd d i (d i) = d.
Proof. extensionality j. unfold upd. destruct (list_eq_dec Nat.eq_dec j i) as [->|]; reflexivity. Qed.
Lemma grad_coordsum sh (g g' : index -> R -> R) : (forall j t, is_derive (g j) t (g' j t)) ->
  grad sh (fun d => total (map (fun j => g j (d j)) (all_indices sh))) (fun i d => g' i (d i)).
Proof.
  intros Hg i I d. generalize (all_nodup sh). revert I. generalize (all_indices sh) as l.
  induction l as [|j l IH]; intros I N; [destruct I|]. inversion N as [|? ? Nj N']; subst.
  change (fun t => total (map (fun j0 => g j0 (upd d i t j0)) (j :: l)))
    with (fun t => g j (upd d i t j) + total (map (fun j0 => g j0 (upd d i t j0)) l)).
  destruct (list_eq_dec Nat.eq_dec j i) as [->|ne].
  - apply is_derive_ext with (f := fun t => g i t + total (map (fun j0 => g j0 (d j0)) l)).
    { intros t. rewrite upd_same. f_equal. apply total_ext. intros k Ik. rewrite upd_other; [reflexivity|congruence]. }
    replace (g' i (d i)) with (g' i (d i) + 0) by ring. apply @is_derive_plus; [apply Hg|apply @is_derive_const].
  - destruct I as [->|I]; [congruence|].
    apply is_derive_ext with (f := fun t => g j (d j) + total (map (fun j0 => g j0 (upd d i t j0)) l)).
    { intros t. now rewrite (upd_other d i j t) by exact ne. }
    replace (g' i (d i)) with (0 + g' i (d i)) by ring. apply @is_derive_plus; [apply @is_derive_const|now apply IH].
Qed.
Lemma grad_ext sh G dG dG' : (forall i, In i (all_indices sh) -> forall d, dG i d = dG' i d) -> grad sh G dG -> grad sh G dG'.
Proof. intros E H i I d. rewrite <- E by exact I. now apply H. Qed.
Lemma grad_ext0 sh G G' dG : (forall d, G d = G' d) -> grad sh G dG -> grad sh G' dG.
Proof. intros E H i I d. apply is_derive_ext with (f := fun t => G (upd d i t)); [intros; apply E|now apply H]. Qed.
Lemma grad_mult sh G H dG dH : grad sh G dG -> grad sh H dH ->
  grad sh (fun d => G d * H d) (fun i d => dG i d * H d + G d * dH i d).
Proof.
  intros A B i I d.
  pose proof (is_derive_mult (fun t => G (upd d i t)) (fun t => H (upd d i t)) (d i) (dG i d) (dH i d) (A i I d) (B i I d) Rmult_comm) as M.
  cbn beta in M. rewrite upd_id in M. exact M.
Qed.
Lemma grad_plus sh G H dG dH : grad sh G dG -> grad sh H dH -> grad sh (fun d => G d + H d) (fun i d => dG i d + dH i d).
Proof. intros A B i I d. apply @is_derive_plus; [apply A|apply B]; exact I. Qed.
Lemma grad_scal sh c G dG : grad sh G dG -> grad sh (fun d => c * G d) (fun i d => c * dG i d).
Proof. intros A i I d. apply @is_derive_scal. now apply A. Qed.
Lemma grad_const sh c : grad sh (fun _ => c) (fun _ _ => 0).
Proof. intros i I d. apply @is_derive_const. Qed.
Lemma grad_comp sh (f f' : R -> R) G dG : (forall u, is_derive f u (f' u)) -> grad sh G dG ->
  grad sh (fun d => f (G d)) (fun i d => dG i d * f' (G d)).
Proof.
  intros Hf A i I d.
  pose proof (is_derive_comp f (fun t => G (upd d i t)) (d i) (f' (G d)) (dG i d)) as M. cbn beta in M. rewrite upd_id in M.
  exact (M (Hf _) (A i I d)).
Qed.
Lemma grad_coord sh j : In j (all_indices sh) -> grad sh (fun d => d j) (fun i _ => if list_eq_dec Nat.eq_dec j i then 1 else 0).
Proof.
  intros J i I d. destruct (list_eq_dec Nat.eq_dec j i) as [->|ne].
  - apply is_derive_ext with (f := fun t => t); [intros; now rewrite upd_same|apply @is_derive_id].
  - apply is_derive_ext with (f := fun t => d j); [intros; now rewrite upd_other|apply @is_derive_const].
Qed.
