(** Operators acting on different arguments of a smooth kernel commute. *)
From Coq Require Import List Reals Lra Lia Bool Arith FunctionalExtensionality.
From Coquelicot Require Import Coquelicot.
From Verif Require Import Base NdArray FunExprModel DiffopModel DiffopSpec DiffopProofs
  LfoModel LfoSpec LfoSmooth LfoProofs KernelModel KernelSpec KernelCalc KernelSmooth KernelSound.
Import ListNotations.
Open Scope R_scope.

Lemma lfo_induction (P : lfo -> Prop) :
  (forall dom cod, P (OId dom cod)) -> (forall d, P (ODiff d)) -> (forall s L, P L -> P (OScaled s L)) ->
  (forall Ls, (forall M, In M Ls -> P M) -> P (OSum Ls)) -> (forall Ls, (forall M, In M Ls -> P M) -> P (OComp Ls)) -> forall L, P L.
Proof.
  intros H1 H2 H3 H4 H5. fix rec 1. intros [dom cod|d|s L|Ls|Ls]; [apply H1|apply H2|apply H3, rec| |].
  - apply H4. induction Ls as [|L Ls IH]; [intros M []|]. intros M [<-|HM]; [apply rec|now apply IH].
  - apply H5. induction Ls as [|L Ls IH]; [intros M []|]. intros M [<-|HM]; [apply rec|now apply IH].
Qed.
Lemma opdom_in sh Ls : fold_right (fun M P => opdom sh M /\ P) True Ls -> forall M, In M Ls -> opdom sh M.
Proof. induction Ls as [|L Ls IH]; intros H M I; [destruct I|]. destruct H as [H1 H2], I as [<-|I]; auto. Qed.

Section S.
Variable sh : shape.
Notation K := (kclass sh).
(** Linear operations on the class. *)
Definition lin (U : kernel -> kernel) : Prop :=
  (forall k, K k -> K (U k)) /\
  (forall s k, K k -> U (fun x0 x1 => s * k x0 x1) = fun x0 x1 => s * U k x0 x1) /\
  (forall (h : index -> kernel) l, (forall y, In y l -> K (h y)) ->
     U (fun x0 x1 => total (map (fun y => h y x0 x1) l)) = fun x0 x1 => total (map (fun y => U (h y) x0 x1) l)) /\
  (forall k k', K k -> K k' -> U (fun x0 x1 => k x0 x1 + k' x0 x1) = fun x0 x1 => U k x0 x1 + U k' x0 x1).
Lemma lin_dsem a d : d_dom d = sh -> lin (in_arg a (dsem d)).
Proof.
  intros D. split; [|split; [|split]].
  - intros k Hk. now apply class_dsem.
  - intros s k Hk. now apply (in_scal sh).
  - intros h l Hh. now apply (in_total sh).
  - intros k k' Hk Hk'.
    pose proof (in_total sh d a (fun b : bool => if b then k else k') [true; false]) as T. cbn [map total fold_right] in T.
    unfold total in T. cbn [map fold_right] in T.
    replace (fun x0 x1 => k x0 x1 + (k' x0 x1 + 0)) with (fun x0 x1 => k x0 x1 + k' x0 x1) in T by (extensionality x0; extensionality x1; ring).
    rewrite T; [|intros [|] _; assumption|exact D]. extensionality x0. extensionality x1. ring.
Qed.
Lemma pd_dsem i : valid_index sh i -> pd i = dsem (DPartial (unit_mi sh i 1)).
Proof. intros V. extensionality f. cbn [dsem]. now rewrite pderiv_unit. Qed.
Lemma lin_pd a i : valid_index sh i -> lin (in_arg a (pd i)).
Proof. intros V. rewrite pd_dsem by exact V. now apply lin_dsem. Qed.
Lemma lin_comp U V : lin U -> lin V -> lin (fun k => U (V k)).
Proof.
  intros (C & S & T & P) (C' & S' & T' & P'). split; [|split; [|split]].
  - auto.
  - intros s k Hk. now rewrite S', S by auto.
  - intros h l Hh. rewrite T', T by auto. reflexivity.
  - intros k k' Hk Hk'. now rewrite P', P by auto.
Qed.
Lemma lin_scal s U : lin U -> lin (fun k x0 x1 => s * U k x0 x1).
Proof.
  intros (C & S & T & P). split; [|split; [|split]].
  - intros k Hk. apply class_scal. auto.
  - intros t k Hk. rewrite S by auto. extensionality x0. extensionality x1. ring.
  - intros h l Hh. rewrite T by auto. extensionality x0. extensionality x1. now rewrite <- total_mult.
  - intros k k' Hk Hk'. rewrite P by auto. extensionality x0. extensionality x1. ring.
Qed.
Lemma lin_plus U V : lin U -> lin V -> lin (fun k x0 x1 => U k x0 x1 + V k x0 x1).
Proof.
  intros (C & S & T & P) (C' & S' & T' & P'). split; [|split; [|split]].
  - intros k Hk. apply class_plus; auto.
  - intros s k Hk. rewrite S', S by auto. extensionality x0. extensionality x1. ring.
  - intros h l Hh. rewrite T', T by auto. extensionality x0. extensionality x1. now rewrite <- total_plus.
  - intros k k' Hk Hk'. rewrite P', P by auto. extensionality x0. extensionality x1. ring.
Qed.
Lemma lin_0 : lin (fun _ _ _ => 0).
Proof.
  split; [|split; [|split]].
  - intros. apply class_zero.
  - intros. extensionality x0. extensionality x1. ring.
  - intros h l Hh. extensionality x0. extensionality x1. symmetry. now apply total_zero.
  - intros. extensionality x0. extensionality x1. ring.
Qed.
Lemma in_comp a L Ls : in_arg a (ksem (OComp (L :: Ls))) = fun k => in_arg a (ksem L) (in_arg a (ksem (OComp Ls)) k).
Proof. extensionality k. now destruct a. Qed.
Lemma in_sum a L Ls : in_arg a (ksem (OSum (L :: Ls))) = fun k x0 x1 => in_arg a (ksem L) k x0 x1 + in_arg a (ksem (OSum Ls)) k x0 x1.
Proof. extensionality k. now destruct a. Qed.
Lemma in_scaled a s L : in_arg a (ksem (OScaled s L)) = fun k x0 x1 => s * in_arg a (ksem L) k x0 x1.
Proof. extensionality k. now destruct a. Qed.
Lemma lin_id a dom cod : lin (in_arg a (ksem (OId dom cod))).
Proof.
  replace (in_arg a (ksem (OId dom cod))) with (fun k : kernel => k) by (extensionality k; now destruct a).
  split; [auto|]. split; [auto|]. split; auto.
Qed.
Lemma lin_ksem a L : opdom sh L -> lin (in_arg a (ksem L)).
Proof.
  induction L as [dom cod|d|s L IH|Ls IH|Ls IH] using lfo_induction; cbn [opdom]; intros O.
  - apply lin_id.
  - now apply lin_dsem.
  - rewrite in_scaled. apply lin_scal. auto.
  - induction Ls as [|L Ls IHL].
    + replace (in_arg a (ksem (OSum []))) with (fun (_ : kernel) (_ _ : array) => 0) by (extensionality k; now destruct a). apply lin_0.
    + rewrite in_sum. destruct O as [O1 O2]. apply lin_plus; [apply IH; [now left|exact O1]|]. apply IHL; [|exact O2]. intros M HM. apply IH. now right.
  - induction Ls as [|L Ls IHL]; [exact (lin_id a [] [])|].
    rewrite in_comp. destruct O as [O1 O2]. apply (lin_comp (in_arg a (ksem L))); [apply IH; [now left|exact O1]|]. apply IHL; [|exact O2]. intros M HM. apply IH. now right.
Qed.

(** What commutes with the partial derivatives commutes with every operator. *)
Section Comm.
Variables (a : nat) (U : kernel -> kernel).
Hypothesis HU : lin U.
Hypothesis HP : forall i k, valid_index sh i -> K k -> in_arg a (pd i) (U k) = U (in_arg a (pd i) k).
Lemma comm_iter i n k : valid_index sh i -> K k -> in_arg a (Nat.iter n (pd i)) (U k) = U (in_arg a (Nat.iter n (pd i)) k).
Proof.
  intros V Hk. induction n as [|n IH].
  - replace (in_arg a (Nat.iter 0 (pd i))) with (fun k : kernel => k) by (extensionality k'; now destruct a). reflexivity.
  - replace (in_arg a (Nat.iter (S n) (pd i))) with (fun k => in_arg a (pd i) (in_arg a (Nat.iter n (pd i)) k)) by (extensionality k'; now destruct a).
    rewrite IH. apply HP; [exact V|]. now apply class_iter.
Qed.
Lemma comm_fold (m : index -> nat) l : (forall i, In i l -> valid_index sh i) -> forall k, K k ->
  in_arg a (fun f => fold_left (fun h i => Nat.iter (m i) (pd i) h) l f) (U k)
  = U (in_arg a (fun f => fold_left (fun h i => Nat.iter (m i) (pd i) h) l f) k).
Proof.
  induction l as [|i l IH]; intros V k Hk.
  - replace (in_arg a (fun f => fold_left (fun h i => Nat.iter (m i) (pd i) h) [] f)) with (fun k : kernel => k) by (extensionality k'; now destruct a). reflexivity.
  - replace (in_arg a (fun f => fold_left (fun h i => Nat.iter (m i) (pd i) h) (i :: l) f))
      with (fun k => in_arg a (fun f => fold_left (fun h i => Nat.iter (m i) (pd i) h) l f) (in_arg a (Nat.iter (m i) (pd i)) k)) by (extensionality k'; now destruct a).
    rewrite comm_iter by (auto; apply V; now left). apply IH; [intros; apply V; now right|]. apply class_iter; [exact Hk|apply V; now left].
Qed.
Lemma comm_dsem d k : d_dom d = sh -> K k -> in_arg a (dsem d) (U k) = U (in_arg a (dsem d) k).
Proof.
  intros D Hk. destruct HU as (_ & US & UT & _).
  destruct d as [al|al|b s w|s v]; cbn [d_dom] in D.
  1, 2: apply (comm_fold (mi_entry al)); [intros i; rewrite D; apply all_indices_spec|exact Hk].
  - subst s. replace (in_arg a (dsem (DLap b sh w)))
      with (fun k x0 x1 => total (map (fun i => w i * in_arg a (pd i) (in_arg a (pd i) k) x0 x1) (all_indices sh))) by (extensionality k'; now destruct a).
    rewrite (UT (fun i x0 x1 => w i * in_arg a (pd i) (in_arg a (pd i) k) x0 x1)).
    + extensionality x0. extensionality x1. apply total_ext. intros i I. apply all_indices_spec in I.
      rewrite US by (apply class_pd; [now apply class_pd|exact I]). rewrite !HP by (auto; now apply class_pd). reflexivity.
    + intros i I. apply all_indices_spec in I. apply class_scal. apply class_pd; [now apply class_pd|exact I].
  - subst s. replace (in_arg a (dsem (DDir sh v)))
      with (fun k x0 x1 => total (map (fun i => v i * in_arg a (pd i) k x0 x1) (all_indices sh))) by (extensionality k'; now destruct a).
    rewrite (UT (fun i x0 x1 => v i * in_arg a (pd i) k x0 x1)).
    + extensionality x0. extensionality x1. apply total_ext. intros i I. apply all_indices_spec in I.
      rewrite US by (now apply class_pd). rewrite !HP by auto. reflexivity.
    + intros i I. apply all_indices_spec in I. apply class_scal. now apply class_pd.
Qed.
Lemma comm_ksem L k : opdom sh L -> K k -> in_arg a (ksem L) (U k) = U (in_arg a (ksem L) k).
Proof.
  revert k. destruct HU as (_ & US & UT & UP).
  induction L as [dom cod|d|s L IH|Ls IH|Ls IH] using lfo_induction; cbn [opdom]; intros k O Hk.
  - replace (in_arg a (ksem (OId dom cod))) with (fun k : kernel => k) by (extensionality k'; now destruct a). reflexivity.
  - now apply comm_dsem.
  - rewrite in_scaled. rewrite US by (now apply (lin_ksem a L)). now rewrite IH.
  - induction Ls as [|L Ls IHL].
    + replace (in_arg a (ksem (OSum []))) with (fun (_ : kernel) (_ _ : array) => 0) by (extensionality k'; now destruct a).
      transitivity (fun x0 x1 => 0 * U (fun _ _ => 0) x0 x1); [extensionality x0; extensionality x1; ring|].
      rewrite <- US by apply class_zero. f_equal. extensionality x0. extensionality x1. ring.
    + rewrite in_sum. destruct O as [O1 O2]. rewrite UP.
      * rewrite (IH L (or_introl eq_refl) k O1 Hk), IHL; [reflexivity| |exact O2]. intros M HM. apply IH. now right.
      * now apply (lin_ksem a L).
      * now apply (lin_ksem a (OSum Ls)).
  - revert k Hk. induction Ls as [|L Ls IHL]; intros k Hk.
    + replace (in_arg a (ksem (OComp []))) with (fun k : kernel => k) by (extensionality k'; now destruct a). reflexivity.
    + rewrite in_comp. destruct O as [O1 O2]. rewrite IHL; [|intros M HM; apply IH; now right|exact O2|exact Hk].
      apply IH; [now left|exact O1|]. now apply (lin_ksem a (OComp Ls)).
Qed.
End Comm.
Lemma comm_args L0 L1 k : opdom sh L0 -> opdom sh L1 -> K k ->
  in_arg 0 (ksem L0) (in_arg 1 (ksem L1) k) = in_arg 1 (ksem L1) (in_arg 0 (ksem L0) k).
Proof.
  intros O0 O1 Hk. apply (comm_ksem 0 (in_arg 1 (ksem L1))); [now apply lin_ksem| |exact O0|exact Hk].
  clear k Hk. intros i k V Hk. symmetry. apply (comm_ksem 1 (in_arg 0 (pd i))); [now apply lin_pd| |exact O1|exact Hk].
  clear k Hk. intros j k V' Hk. symmetry. now apply (class_comm sh).
Qed.
End S.
