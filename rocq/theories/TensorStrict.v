(** Products of covariance functions: positive semidefinite, symmetric, and without variance
    only for combinations whose weights cancel. *)
From Coq Require Import List Arith Lia Reals Lra FunctionalExtensionality.
From Verif Require Import Base ParamSpec ParamProofs TensorSpec TensorSchur PsdBase MaternStrict StatChain MaternChain.
Import ListNotations.
Open Scope R_scope.

Lemma sumR_null {A} (f : A -> R) l : (forall x, In x l -> 0 <= f x) -> sumR f l = 0 -> forall x, In x l -> f x = 0.
Proof.
  induction l as [|a l IH]; intros H Z x Hx; [destruct Hx|]. rewrite sumR_cons in Z.
  pose proof (H a (or_introl eq_refl)). pose proof (sumR_nonneg f l (fun y Hy => H y (or_intror Hy))).
  destruct Hx as [<-|Hx]; [lra|]. apply IH; [intros; apply H; now right|lra|exact Hx].
Qed.
Lemma pick {Y} (dec : forall x y : Y, {x = y} + {x <> y}) (F : Y -> R) y0 ys : NoDup ys -> In y0 ys -> sumR (fun y => F y * if dec y0 y then 1 else 0) ys = F y0.
Proof.
  induction ys as [|y ys IH]; intros N H; [destruct H|]. inversion N as [|? ? N1 N2]; subst. rewrite sumR_cons.
  assert (Z : ~ In y0 ys -> sumR (fun y => F y * if dec y0 y then 1 else 0) ys = 0).
  { intros Q. etransitivity; [|exact (sumR_zero ys)]. apply sumR_ext. intros z Hz. destruct (dec y0 z) as [->|]; [contradiction|ring]. }
  destruct (dec y0 y) as [->|D].
  - rewrite Z by exact N1. ring.
  - destruct H as [->|H]; [contradiction|]. rewrite IH by assumption. ring.
Qed.
(** Weights that cancel, tested with the functions in [P]. *)
Definition strict_in {X} (P : (X -> R) -> Prop) (ok : X -> Prop) (K : X -> X -> R) : Prop :=
  forall l, (forall p, In p l -> ok (snd p)) -> form K l = 0 -> forall phi, P phi -> sumR (fun p => fst p * phi (snd p)) l = 0.
Lemma form_pull {X Y} (K : Y -> Y -> R) (f : X -> Y) (w : R * X -> R) l :
  form K (map (fun p => (w p, f (snd p))) l) = sumR (fun p => sumR (fun q => w p * w q * K (f (snd p)) (f (snd q))) l) l.
Proof. unfold form. rewrite sumR_map. apply sumR_ext. intros p _. rewrite sumR_map. reflexivity. Qed.
Lemma prod_strict {Z X Y} (decY : forall x y : Y, {x = y} + {x <> y}) (f : Z -> X) (h : Z -> Y) P ok1 (K1 : X -> X -> R) ok2 (K2 : Y -> Y -> R) l (phi : X -> Y -> R) :
  psd_kernel (K1 : X -> X -> RF) -> sym K2 -> psd_kernel (K2 : Y -> Y -> RF) -> strict_in P ok1 K1 -> strict_on ok2 K2 ->
  (forall p, In p l -> ok1 (f (snd p)) /\ ok2 (h (snd p))) -> form (fun z z' => K1 (f z) (f z') * K2 (h z) (h z')) l = 0 -> (forall y, P (fun x => phi x y)) ->
  sumR (fun p => fst p * phi (f (snd p)) (h (snd p))) l = 0.
Proof.
  intros P1 S2 P2 T1 T2 O E Hphi. destruct (gram K2 (map (fun p => h (snd p)) l) S2 P2) as [bs G].
  assert (EF : sumR (fun b => form K1 (map (fun p => (fst p * b (h (snd p)), f (snd p))) l)) bs = 0).
  { etransitivity; [|exact E]. rewrite (sumR_ext _ (fun b : Y -> R => sumR (fun p => sumR (fun q => fst p * b (h (snd p)) * (fst q * b (h (snd q))) * K1 (f (snd p)) (f (snd q))) l) l)) by (intros b _; apply form_pull).
    rewrite sumR_swap. unfold form. apply sumR_ext. intros p Hp. rewrite sumR_swap. apply sumR_ext. intros q _.
    rewrite (G (h (snd p)) (h (snd q))) by (apply in_map_iff; now exists p). rewrite <- !Rmult_assoc, sumR_scal. apply sumR_ext. intros b _. ring. }
  assert (Zb : forall b, In b bs -> forall p1, P p1 -> sumR (fun p => fst p * b (h (snd p)) * p1 (f (snd p))) l = 0).
  { intros b Hb p1 Hp1. assert (Fz : form K1 (map (fun p => (fst p * b (h (snd p)), f (snd p))) l) = 0).
    { apply (sumR_null (fun b => form K1 (map (fun p => (fst p * b (h (snd p)), f (snd p))) l)) bs); [|exact EF|exact Hb]. intros c _. apply P1. }
    pose proof (T1 (map (fun p => (fst p * b (h (snd p)), f (snd p))) l) ltac:(intros p Hp; apply in_map_iff in Hp as (q & <- & Hq); now apply O) Fz p1 Hp1) as Q. rewrite sumR_map in Q. exact Q. }
  assert (Z2 : forall p1, P p1 -> forall psi : Y -> R, sumR (fun p => fst p * p1 (f (snd p)) * psi (h (snd p))) l = 0).
  { intros p1 Hp1. assert (Fz : form K2 (map (fun p => (fst p * p1 (f (snd p)), h (snd p))) l) = 0).
    { rewrite form_pull. transitivity (sumR (fun b => sumR (fun p => fst p * b (h (snd p)) * p1 (f (snd p))) l * sumR (fun p => fst p * b (h (snd p)) * p1 (f (snd p))) l) bs).
      - symmetry. transitivity (sumR (fun b : Y -> R => sumR (fun p => sumR (fun q => fst p * b (h (snd p)) * p1 (f (snd p)) * (fst q * b (h (snd q)) * p1 (f (snd q)))) l) l) bs).
        { apply sumR_ext. intros b _. rewrite sumR_scal_r. apply sumR_ext. intros p _. apply sumR_scal. }
        rewrite sumR_swap. apply sumR_ext. intros p Hp. rewrite sumR_swap. apply sumR_ext. intros q _.
        rewrite (G (h (snd p)) (h (snd q))) by (apply in_map_iff; now exists p). rewrite sumR_scal. apply sumR_ext. intros b _. ring.
      - etransitivity; [|exact (sumR_zero bs)]. apply sumR_ext. intros b Hb. rewrite (Zb b Hb p1 Hp1). ring. }
    intros psi. pose proof (T2 (map (fun p => (fst p * p1 (f (snd p)), h (snd p))) l) ltac:(intros p Hp; apply in_map_iff in Hp as (q & <- & Hq); now apply O) Fz psi) as Q. rewrite sumR_map in Q. exact Q. }
  set (ys := nodup decY (map (fun p => h (snd p)) l)).
  transitivity (sumR (fun y => sumR (fun p => fst p * phi (f (snd p)) y * if decY (h (snd p)) y then 1 else 0) l) ys).
  - rewrite sumR_swap. apply sumR_ext. intros p Hp. rewrite (pick decY (fun y => fst p * phi (f (snd p)) y)); [reflexivity|apply NoDup_nodup|].
    apply nodup_In, in_map_iff. now exists p.
  - etransitivity; [|exact (sumR_zero ys)]. apply sumR_ext. intros y _. exact (Z2 (fun x => phi x y) (Hphi y) (fun y' => if decY y' y then 1 else 0)).
Qed.

Section T.
Context {Y : Type}.
Variable decY : forall x y : Y, {x = y} + {x <> y}.
Variables (ok : nat -> Y -> Prop) (K : nat -> Y -> Y -> R).
Definition tk (n : nat) (z z' : nat -> Y) : R := @fprod RF (map (fun m => K m (z m) (z' m)) (seq 0 n)).
Definition local (n : nat) (phi : (nat -> Y) -> R) : Prop := forall z z', (forall m, (m < n)%nat -> z m = z' m) -> phi z = phi z'.
Lemma fprod_app (l l' : list R) : @fprod RF (l ++ l') = @fprod RF l * @fprod RF l'.
Proof.
  induction l as [|a l IH]; [symmetry; apply Rmult_1_l|].
  change (Rmult a (@fprod RF (l ++ l')) = Rmult (Rmult a (@fprod RF l)) (@fprod RF l')). rewrite IH. symmetry. apply Rmult_assoc.
Qed.
Lemma tk_S n z z' : tk (S n) z z' = tk n z z' * K n (z n) (z' n).
Proof. unfold tk. rewrite seq_S, map_app, fprod_app. cbn [map Nat.add]. f_equal. apply Rmult_1_r. Qed.
Lemma tk_sym n : (forall m, (m < n)%nat -> sym (K m)) -> sym (tk n).
Proof. intros H z z'. unfold tk. f_equal. apply map_ext_in. intros m Hm. apply in_seq in Hm. apply H. lia. Qed.
Lemma tk_psd n : (forall m, (m < n)%nat -> sym (K m) /\ psd_kernel (K m : Y -> Y -> RF)) -> psd_kernel (tk n : (nat -> Y) -> (nat -> Y) -> RF).
Proof.
  induction n as [|n IH]; intros H; [apply psd_one|].
  apply (psd_ext (fun z z' => K n (z n) (z' n) * tk n z z' : car RF)); [intros z z'; rewrite tk_S; apply Rmult_comm|].
  apply (schur (fun z z' => K n (z n) (z' n)) (tk n)); [intros z z'; apply H; lia| |apply IH; intros; apply H; lia].
  apply (psd_pull (K n : Y -> Y -> RF) (fun z : nat -> Y => z n)). apply H. lia.
Qed.
Lemma tk_strict n : (forall m, (m < n)%nat -> sym (K m) /\ psd_kernel (K m : Y -> Y -> RF) /\ strict_on (ok m) (K m)) ->
  strict_in (local n) (fun z => forall m, (m < n)%nat -> ok m (z m)) (tk n).
Proof.
  induction n as [|n IH]; intros H l O E phi L.
  - assert (S0 : sumR fst l = 0).
    { assert (S2 : sumR fst l * sumR fst l = 0); [|nra]. etransitivity; [|exact E]. unfold form. rewrite sumR_scal_r. apply sumR_ext. intros p _. rewrite sumR_scal. apply sumR_ext. intros q _. unfold tk. cbn. ring. }
    destruct l as [|p0 l]; [reflexivity|]. rewrite (sumR_ext _ (fun p => fst p * phi (snd p0))); [|intros p _; rewrite (L (snd p) (snd p0)) by (intros; lia); reflexivity].
    rewrite <- sumR_scal_r, S0. ring.
  - assert (Hn : forall m, (m < n)%nat -> sym (K m) /\ psd_kernel (K m : Y -> Y -> RF) /\ strict_on (ok m) (K m)) by (intros; apply H; lia).
    destruct (H n (Nat.lt_succ_diag_r n)) as (Sn & Pn & Tn).
    set (phi' := fun (z : nat -> Y) (y : Y) => phi (fun m => if Nat.eq_dec m n then y else z m)).
    rewrite (sumR_ext _ (fun p => fst p * phi' (snd p) (snd p n))).
    2: { intros p _. f_equal. unfold phi'. apply L. intros m _. destruct (Nat.eq_dec m n) as [->|]; reflexivity. }
    apply (prod_strict decY (fun z => z) (fun z => z n) (local n) (fun z => forall m, (m < n)%nat -> ok m (z m)) (tk n) (ok n) (K n) l phi'); try assumption.
    + apply tk_psd. intros m Hm. destruct (Hn m Hm) as (? & ? & ?). auto.
    + now apply IH.
    + intros p Hp. split; [intros m Hm; apply (O p Hp); lia|apply (O p Hp); lia].
    + etransitivity; [|exact E]. apply form_ext. intros z z'. symmetry. apply tk_S.
    + intros y z z' A. unfold phi'. apply L. intros m Hm. destruct (Nat.eq_dec m n) as [->|]; [reflexivity|apply A; lia].
Qed.
End T.
