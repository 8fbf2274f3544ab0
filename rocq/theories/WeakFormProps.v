(** C68: weak forms of operators and their arithmetic. *)
From Coq Require Import List Reals Bool Arith Lra Lia.
From Coquelicot Require Import Coquelicot.
From Verif Require Import Base PiecewiseSpec FemModel FemSpec FemProofs FemProps WeakFormModel WeakFormSpec.
Import ListNotations.
Open Scope R_scope.

(** Writing multiples gives the multiple of the weak form. *)
Lemma f_scale_call s f trial : match f_call f trial with
  | Ok K => exists M, f_call (f_scale s f) trial = Ok M /\ forall i j, M i j = s * K i j
  | Err er => f_call (f_scale s f) trial = Err er end.
Proof.
  destruct f as [t|u f|f g]; cbn [f_scale f_call].
  - destruct (weak_laplacian t trial); cbn [bind]; [eexists; split; [reflexivity|]; reflexivity|reflexivity].
  - destruct (f_call f trial); cbn [bind]; [eexists; split; [reflexivity|]; intros; cbn beta; ring|reflexivity].
  - destruct (f_call f trial); cbn [bind]; [|reflexivity]. destruct (f_call g trial); cbn [bind]; [eexists; split; [reflexivity|]; reflexivity|reflexivity].
Qed.
Lemma f_scale_out s f : f_out (f_scale s f) = f_out f.
Proof. destruct f; reflexivity. Qed.
Lemma built e : match multiple e with
  | Some s => (exists sh, wbuild e = WLaplacian sh /\ s = 1) \/ (exists sh, wbuild e = WScaled s (WLaplacian sh))
  | None => (exists sh, wbuild e = WOther sh) \/ (exists s sh, wbuild e = WScaled s (WOther sh)) end.
Proof.
  assert (G : forall s e, match multiple e with
  | Some s => (exists sh, wbuild e = WLaplacian sh /\ s = 1) \/ (exists sh, wbuild e = WScaled s (WLaplacian sh))
  | None => (exists sh, wbuild e = WOther sh) \/ (exists s sh, wbuild e = WScaled s (WOther sh)) end -> match option_map (Rmult s) (multiple e) with
  | Some s' => (exists sh, w_scale s (wbuild e) = WLaplacian sh /\ s' = 1) \/ (exists sh, w_scale s (wbuild e) = WScaled s' (WLaplacian sh))
  | None => (exists sh, w_scale s (wbuild e) = WOther sh) \/ (exists t sh, w_scale s (wbuild e) = WScaled t (WOther sh)) end).
  { intros s e0 H. destruct (multiple e0) as [t|]; cbn [option_map].
    - right. destruct H as [(sh & -> & ->)|(sh & ->)]; exists sh; cbn [w_scale]; [now rewrite Rmult_1_r|reflexivity].
    - right. destruct H as [(sh & ->)|(t & sh & ->)]; cbn [w_scale]; eauto. }
  induction e as [sh|sh|s e IH|e IH]; cbn [multiple wbuild].
  - left. eauto.
  - left. eauto.
  - now apply G.
  - specialize (G (-1) e IH). replace (option_map Ropp (multiple e)) with (option_map (Rmult (-1)) (multiple e)); [exact G|]. destruct (multiple e); cbn [option_map]; [f_equal; ring|reflexivity].
Qed.
Lemma form e t : match multiple e with
  | Some s => if b_zero t then exists f, weak_form (wbuild e) t = Ok f /\ f_out f = b_len t /\
      forall trial, match weak_laplacian t trial with Ok K => exists M, f_call f trial = Ok M /\ forall i j, M i j = s * K i j | Err er => f_call f trial = Err er end
      else weak_form (wbuild e) t = Err AssertionError
  | None => weak_form (wbuild e) t = Err NotImplementedError end.
Proof.
  pose proof (built e) as H. destruct (multiple e) as [s|].
  - destruct H as [(sh & -> & ->)|(sh & ->)]; cbn [weak_form]; unfold mk_weak; destruct (b_zero t) eqn:Z; cbn [bind]; try reflexivity; eexists; (split; [reflexivity|]); (split; [reflexivity|]); intros trial; cbn [f_scale f_call].
    + destruct (weak_laplacian t trial); [|reflexivity]. eexists. split; [reflexivity|]. intros; ring.
    + destruct (weak_laplacian t trial); cbn [bind]; [|reflexivity]. eexists. split; [reflexivity|]. reflexivity.
  - destruct H as [(sh & ->)|(s & sh & ->)]; reflexivity.
Qed.

(** Which operators and test bases have a weak form. *)
Theorem C68_accepts : forall e t,
  ((exists f, weak_form (wbuild e) t = Ok f) <-> (exists s, multiple e = Some s) /\ b_zero t = true) /\
  (forall er, weak_form (wbuild e) t = Err er -> er = if multiple e then AssertionError else NotImplementedError) /\
  (forall L M L', w_add L M = Ok L' -> forall s, weak_form (w_scale s L') t = Err AttributeError).
Proof.
  intros e t. pose proof (form e t) as H. split; [|split].
  - destruct (multiple e) as [s|]; [destruct (b_zero t)|].
    + destruct H as (f & H & _). split; eauto.
    + rewrite H. split; [intros [? ?]; discriminate|intros [_ ?]; discriminate].
    + rewrite H. split; [intros [? ?]; discriminate|intros [[? ?] _]; discriminate].
  - intros er E. destruct (multiple e) as [s|]; [destruct (b_zero t)|].
    + destruct H as (f & H & _). congruence.
    + congruence.
    + congruence.
  - intros L M L' H' s. unfold w_add in H'. destruct (w_dom L); [|discriminate]. destruct (w_dom M); [|discriminate]. destruct (list_eq_dec _ _ _); [|discriminate]. now injection H' as <-.
Qed.
Print Assumptions C68_accepts.
(** Sums of operators need the same domain. *)
Theorem C68_sum_of_operators : forall e e', ((exists L, w_add (wbuild e) (wbuild e') = Ok L) <-> w_dom (wbuild e) = w_dom (wbuild e')) /\
  (w_dom (wbuild e) <> w_dom (wbuild e') -> w_add (wbuild e) (wbuild e') = Err AssertionError).
Proof.
  assert (D : forall e, exists sh, w_dom (wbuild e) = Some sh).
  { intros e. pose proof (built e) as H. destruct (multiple e) as [s|].
    - destruct H as [(sh & -> & _)|(sh & ->)]; exists sh; reflexivity.
    - destruct H as [(sh & ->)|(s & sh & ->)]; exists sh; reflexivity. }
  intros e e'. unfold w_add. destruct (D e) as [a ->], (D e') as [b ->]. destruct (list_eq_dec _ a b) as [->|N]; split.
  - split; [intros _; reflexivity|eauto].
  - congruence.
  - split; [intros [? ?]; discriminate|intros [= E]; contradiction].
  - reflexivity.
Qed.
(** Linear combinations of weak forms of multiples of the Laplacian on a common test basis: the same
    linear combination of stiffness matrices. *)
Theorem C68_value : forall test trial K x, weak_laplacian test trial = Ok K -> (forall t, In t (tests x) -> t = test) -> (forall e, In e (operators x) -> multiple e <> None) ->
  exists f M, fbuild x = Ok f /\ f_out f = b_len test /\ f_call f trial = Ok M /\ forall i j, M i j = fvalue x (fun _ => K i j).
Proof.
  intros test trial K x HK. assert (Z : b_zero test = true) by (unfold weak_laplacian in HK; destruct (b_zero test); [reflexivity|discriminate]).
  induction x as [e t|s x IH|x IH|x IHx y IHy|x IHx y IHy]; cbn [tests operators]; intros HT HO.
  - specialize (HT t (or_introl eq_refl)). subst t. specialize (HO e (or_introl eq_refl)). cbn [fbuild fvalue]. pose proof (form e test) as H. destruct (multiple e) as [s|]; [|congruence]. rewrite Z in H.
    destruct H as (f & H1 & H2 & H3). specialize (H3 trial). rewrite HK in H3. destruct H3 as (M & H3 & H4). eauto 6.
  - destruct (IH HT HO) as (f & M & E1 & E2 & E3 & E4). cbn [fbuild]. rewrite E1. cbn [bind]. pose proof (f_scale_call s f trial) as H. rewrite E3 in H. destruct H as (M' & H1 & H2).
    exists (f_scale s f), M'. split; [reflexivity|]. split; [now rewrite f_scale_out|]. split; [exact H1|]. intros i j. rewrite H2, E4. reflexivity.
  - destruct (IH HT HO) as (f & M & E1 & E2 & E3 & E4). cbn [fbuild]. rewrite E1. cbn [bind]. pose proof (f_scale_call (-1) f trial) as H. rewrite E3 in H. destruct H as (M' & H1 & H2).
    exists (f_neg f), M'. split; [reflexivity|]. split; [unfold f_neg; now rewrite f_scale_out|]. split; [exact H1|]. intros i j. rewrite H2, E4. cbn [fvalue]. ring.
  - destruct IHx as (f & M & E1 & E2 & E3 & E4); [intros; apply HT, in_app_iff; auto|intros; apply HO, in_app_iff; auto|]. destruct IHy as (g & N & F1 & F2 & F3 & F4); [intros; apply HT, in_app_iff; auto|intros; apply HO, in_app_iff; auto|].
    cbn [fbuild]. rewrite E1, F1. cbn [bind]. unfold f_add. rewrite E2, F2, Nat.eqb_refl. eexists. eexists. split; [reflexivity|]. split; [exact E2|]. cbn [f_call]. rewrite E3, F3. cbn [bind]. split; [reflexivity|].
    intros i j. cbn [fvalue]. now rewrite E4, F4.
  - destruct IHx as (f & M & E1 & E2 & E3 & E4); [intros; apply HT, in_app_iff; auto|intros; apply HO, in_app_iff; auto|]. destruct IHy as (g & N & F1 & F2 & F3 & F4); [intros; apply HT, in_app_iff; auto|intros; apply HO, in_app_iff; auto|].
    cbn [fbuild]. rewrite E1, F1. cbn [bind]. unfold f_sub, f_add, f_neg. rewrite f_scale_out, E2, F2, Nat.eqb_refl. pose proof (f_scale_call (-1) g trial) as H. rewrite F3 in H. destruct H as (N' & H1 & H2).
    eexists. eexists. split; [reflexivity|]. split; [exact E2|]. cbn [f_call]. rewrite E3, H1. cbn [bind]. split; [reflexivity|]. intros i j. cbn [fvalue]. rewrite E4, H2, F4. ring.
Qed.
Print Assumptions C68_value.
(** Sums of functionals with different numbers of test functions are rejected. *)
Theorem C68_different_tests : forall e e' t t' f f', weak_form (wbuild e) t = Ok f -> weak_form (wbuild e') t' = Ok f' -> b_len t <> b_len t' ->
  fbuild (FE_add (FE_weak e t) (FE_weak e' t')) = Err AssertionError /\ fbuild (FE_sub (FE_weak e t) (FE_weak e' t')) = Err AssertionError.
Proof.
  intros e e' t t' f f' H H' N. cbn [fbuild]. rewrite H, H'. cbn [bind]. unfold f_sub, f_add, f_neg. rewrite f_scale_out.
  assert (O : forall e t f, weak_form (wbuild e) t = Ok f -> f_out f = b_len t).
  { intros e0 t0 f0 H0. pose proof (form e0 t0) as G. destruct (multiple e0); [destruct (b_zero t0)|]; [|congruence|congruence]. destruct G as (g & G1 & G2 & _). congruence. }
  rewrite (O e t f H), (O e' t' f' H'). apply Nat.eqb_neq in N. rewrite N. auto.
Qed.
(** So on a uniform grid the matrix of s times the Laplacian is the weak form of this operator, with the
    boundary terms gone because the test functions vanish there. *)
Theorem C68_weak_form : forall grid test trial e s, increasing grid -> (exists h, uniform grid h) -> basis_init grid true = Ok test -> basis_init grid false = Ok trial -> multiple e = Some s ->
  exists f M, weak_form (wbuild e) test = Ok f /\ f_call f trial = Ok M /\
  forall i j, (i < b_len test)%nat -> (j < b_len trial)%nat ->
    is_RInt (fun x => Derive (fun y => basis_eval test y i) x * (s * Derive (fun y => basis_eval trial y j) x))
      (nth 0 grid 0) (nth (length grid - 1) grid 0) (- M i j).
Proof.
  intros grid test trial e s Hi Hu Ht Htr He. destruct (C10_stiffness_uniform grid Hi test trial Ht Htr) as (K & HK & H). specialize (H Hu).
  destruct (C68_value test trial K (FE_weak e test) HK) as (f & M & H1 & _ & H3 & H4); [intros t [<-|[]]; reflexivity|intros e' [<-|[]]; congruence|]. exists f, M. split; [exact H1|]. split; [exact H3|].
  intros i j Hi' Hj. rewrite H4. cbn [fvalue]. rewrite He. replace (- (s * K i j)) with (scal s (- K i j)) by (change (s * - K i j = - (s * K i j)); ring).
  apply is_RInt_ext with (f := fun x => scal s (Derive (fun y => basis_eval test y i) x * Derive (fun y => basis_eval trial y j) x)); [intros; change (s * (Derive (fun y => basis_eval test y i) x * Derive (fun y => basis_eval trial y j) x) = Derive (fun y => basis_eval test y i) x * (s * Derive (fun y => basis_eval trial y j) x)); ring|].
  exact (is_RInt_scal _ _ _ s _ (H i j Hi' Hj)).
Qed.
Print Assumptions C68_weak_form.
(** Finding: the domain of the operator is not compared with that of the basis. *)
Theorem C68_domain_refuted : forall sh t, weak_form (WLaplacian sh) t = weak_form (WLaplacian []) t.
Proof. reflexivity. Qed.
(** A concrete case: three times the weak form of -2 Δ, minus that of Δ, on the grid 0, 1, 2, 3. *)
Definition wf_x (t : basis) : fexp := FE_sub (FE_scale 3 (FE_weak (WE_scale 2 (WE_neg (WE_lap []))) t)) (FE_weak (WE_lap []) t).
Example C68_example : exists test trial f M, basis_init [0; 1; 2; 3] true = Ok test /\ basis_init [0; 1; 2; 3] false = Ok trial /\
  fbuild (wf_x test) = Ok f /\ f_call f trial = Ok M /\ M 1%nat 2%nat = 14 /\ M 1%nat 1%nat = -7.
Proof.
  destruct C10_example as (_ & _ & K & test & trial & H1 & H2 & H3 & H4 & H5 & _). exists test, trial.
  destruct (C68_value test trial K (wf_x test) H3) as (f & M & E1 & _ & E3 & E4); [intros t [<-|[<-|[]]]; reflexivity|intros e [<-|[<-|[]]]; discriminate|].
  exists f, M. repeat (split; [assumption|]). rewrite !E4. cbn. rewrite H4, H5. lra.
Qed.
