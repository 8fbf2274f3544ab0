(** Products of positive semidefinite kernels are positive semidefinite. *)
From Coq Require Import List Arith Lia Reals Lra.
From Verif Require Import Base ParamSpec ParamProofs TensorSpec.
Import ListNotations.
Open Scope R_scope.

Definition sumR {A} (f : A -> R) (l : list A) : R := @fsum RF (map f l).
Lemma sumR_cons {A} (f : A -> R) a l : sumR f (a :: l) = f a + sumR f l.
Proof. reflexivity. Qed.
Lemma sumR_ext {A} (f g : A -> R) l : (forall x, In x l -> f x = g x) -> sumR f l = sumR g l.
Proof. apply (sum_ext (F := RF)). Qed.
Lemma sumR_add {A} (f g : A -> R) l : sumR (fun x => f x + g x) l = sumR f l + sumR g l.
Proof. apply (sum_add RF_laws). Qed.
Lemma sumR_scal {A} c (f : A -> R) l : c * sumR f l = sumR (fun x => c * f x) l.
Proof. apply (sum_scal_l RF_laws). Qed.
Lemma sumR_scal_r {A} c (f : A -> R) l : sumR f l * c = sumR (fun x => f x * c) l.
Proof. apply (sum_scal_r RF_laws). Qed.
Lemma sumR_swap {A B} (f : A -> B -> R) l m : sumR (fun x => sumR (f x) m) l = sumR (fun y => sumR (fun x => f x y) l) m.
Proof. apply (sum_swap RF_laws). Qed.
Lemma sumR_map {A B} (f : B -> R) (g : A -> B) l : sumR f (map g l) = sumR (fun x => f (g x)) l.
Proof. unfold sumR. now rewrite map_map. Qed.
Lemma sumR_zero {A} (l : list A) : sumR (fun _ => 0) l = 0.
Proof. apply (sum_zero RF_laws). Qed.
Lemma sumR_nonneg {A} (f : A -> R) l : (forall x, In x l -> 0 <= f x) -> 0 <= sumR f l.
Proof. induction l as [|a l IH]; intros H; [apply Rle_refl|]. rewrite sumR_cons. apply Rplus_le_le_0_compat; [apply H; now left|apply IH; intros x Hx; apply H; now right]. Qed.

Section S.
Context {X : Type}.
Implicit Types (K : X -> X -> R).
Definition form K (l : list (R * X)) : R := sumR (fun p => sumR (fun q => fst p * fst q * K (snd p) (snd q)) l) l.
Lemma psd_form K : psd_kernel K <-> forall l, 0 <= form K l.
Proof. reflexivity. Qed.
Definition sym K : Prop := forall x y, K x y = K y x.
Lemma form_cons K c x l : sym K -> form K ((c, x) :: l) = c * c * K x x + 2 * c * sumR (fun p => fst p * K (snd p) x) l + form K l.
Proof.
  intros S. unfold form. rewrite !sumR_cons. cbn [fst snd].
  replace (sumR (fun p => sumR (fun q => fst p * fst q * K (snd p) (snd q)) ((c, x) :: l)) l)
    with (sumR (fun p => fst p * c * K (snd p) x) l + sumR (fun p => sumR (fun q => fst p * fst q * K (snd p) (snd q)) l) l).
  2: { rewrite <- sumR_add. apply sumR_ext. intros p _. now rewrite sumR_cons. }
  replace (sumR (fun q => c * fst q * K x (snd q)) l) with (c * sumR (fun p => fst p * K (snd p) x) l).
  2: { rewrite sumR_scal. apply sumR_ext. intros p _. rewrite (S x). ring. }
  replace (sumR (fun p => fst p * c * K (snd p) x) l) with (c * sumR (fun p => fst p * K (snd p) x) l).
  2: { rewrite sumR_scal. apply sumR_ext. intros p _. ring. }
  ring.
Qed.
Lemma psd_diag K x : psd_kernel K -> 0 <= K x x.
Proof. intros H. specialize (H [(1, x)]). cbn in H. lra. Qed.
Lemma psd_null K x : sym K -> psd_kernel K -> K x x = 0 -> forall y, K x y = 0.
Proof.
  intros S H E y. destruct (Req_dec (K x y) 0) as [Z|Z]; [exact Z|exfalso].
  pose proof (psd_diag K y H) as Hy. set (t := - (K y y + 1) / (2 * K x y)).
  pose proof (H [(t, x); (1, y)]) as G. cbn [map fst snd] in G. cbn [fsum RF fold_right] in G. cbn in G. rewrite E, (S y x) in G.
  assert (T : t * K x y = - (K y y + 1) / 2) by (unfold t; field; exact Z). nra.
Qed.
(** One step of the Cholesky factorisation. *)
Lemma pivot K x : sym K -> psd_kernel K -> exists f R, (forall y z, K y z = f y * f z + R y z) /\ sym R /\ psd_kernel R /\
  (forall y, R x y = 0) /\ (forall z, (forall y, K z y = 0) -> forall y, R z y = 0).
Proof.
  intros S H. destruct (Req_dec (K x x) 0) as [Z|Z].
  - exists (fun _ => 0), K. split; [intros; ring|]. split; [exact S|]. split; [exact H|]. split; [apply psd_null; assumption|auto].
  - pose proof (psd_diag K x H) as P. assert (Px : 0 < K x x) by lra. set (a := K x x) in *. set (r := sqrt a).
    assert (Hr : r * r = a) by (apply sqrt_sqrt; lra). assert (Nr : r <> 0) by (intros E; rewrite E in Hr; lra).
    exists (fun y => K y x / r), (fun y z => K y z - K y x / r * (K z x / r)).
    split; [intros; ring|]. split; [intros y z; rewrite (S y z); ring|]. split; [|split].
    + intros l. change (0 <= form (fun y z => K y z - K y x / r * (K z x / r)) l).
      pose proof (H ((- sumR (fun p => fst p * K (snd p) x) l / a, x) :: l)) as G.
      match type of G with 0 <= ?g => change g with (form K ((- sumR (fun p => fst p * K (snd p) x) l / a, x) :: l)) in G end.
      rewrite form_cons in G by exact S. fold a in G. set (s := sumR (fun p => fst p * K (snd p) x) l) in *.
      replace (form (fun y z => K y z - K y x / r * (K z x / r)) l) with (form K l - s * s / a).
      * replace (- s / a * (- s / a) * a + 2 * (- s / a) * s + form K l) with (form K l - s * s / a) in G by (field; lra). exact G.
      * rewrite <- Hr. unfold form. unfold s.
        replace (sumR (fun p => fst p * K (snd p) x) l * sumR (fun p => fst p * K (snd p) x) l / (r * r))
          with (sumR (fun p => sumR (fun q => fst p * fst q * (K (snd p) x / r * (K (snd q) x / r))) l) l).
        -- apply Rplus_eq_reg_r with (sumR (fun p => sumR (fun q => fst p * fst q * (K (snd p) x / r * (K (snd q) x / r))) l) l).
           rewrite <- sumR_add. match goal with |- ?a - ?s + ?s = _ => replace (a - s + s) with a by ring end. apply sumR_ext. intros p _. rewrite <- sumR_add. apply sumR_ext. intros q _. ring.
        -- unfold Rdiv at 3. rewrite Rmult_assoc, (Rmult_comm (sumR _ _) (/ _)), sumR_scal_r. apply sumR_ext. intros p _.
           rewrite sumR_scal, sumR_scal. apply sumR_ext. intros q _. field. exact Nr.
    + intros y. fold a. rewrite (S y x). field_simplify_eq; [|exact Nr]. nra.
    + intros z Hz y. rewrite !Hz. field. exact Nr.
Qed.
Lemma gram K xs : sym K -> psd_kernel K -> exists fs : list (X -> R), forall y z, In y xs -> K y z = sumR (fun f => f y * f z) fs.
Proof.
  intros S H. assert (G : exists fs R, (forall y z, K y z = sumR (fun f => f y * f z) fs + R y z) /\ sym R /\ psd_kernel R /\
    (forall x, In x xs -> forall y, R x y = 0)).
  { induction xs as [|x xs (fs & R & E & SR & PR & Z)].
    - exists [], K. split; [intros; unfold sumR; cbn; ring|]. split; [exact S|]. split; [exact H|]. intros x [].
    - destruct (pivot R x SR PR) as (f & R' & E' & SR' & PR' & Z1 & Z2). exists (f :: fs), R'.
      split; [intros y z; rewrite E, E', sumR_cons; ring|]. split; [exact SR'|]. split; [exact PR'|].
      intros y [<-|Hy]; [exact Z1|]. apply Z2. apply Z. exact Hy. }
  destruct G as (fs & R & E & _ & _ & Z). exists fs. intros y z Hy. rewrite E, Z by exact Hy. ring.
Qed.
(** The Schur product theorem. *)
Lemma schur K1 K2 : sym K1 -> psd_kernel K1 -> psd_kernel K2 -> psd_kernel (fun x y => K1 x y * K2 x y : car RF).
Proof.
  intros S H1 H2 l. destruct (gram K1 (map snd l) S H1) as [fs E].
  change (0 <= form (fun x y => K1 x y * K2 x y) l).
  replace (form (fun x y => K1 x y * K2 x y) l) with (sumR (fun f => form K2 (map (fun p => (fst p * f (snd p), snd p)) l)) fs).
  - apply sumR_nonneg. intros f _. apply H2.
  - unfold form. transitivity (sumR (fun f => sumR (fun p => sumR (fun q => fst p * f (snd p) * (fst q * f (snd q)) * K2 (snd p) (snd q)) l) l) fs).
    + apply sumR_ext. intros f _. rewrite sumR_map. apply sumR_ext. intros p _. rewrite sumR_map. reflexivity.
    + rewrite sumR_swap. apply sumR_ext. intros p Hp. rewrite sumR_swap. apply sumR_ext. intros q _.
      rewrite (E (snd p) (snd q)) by now apply in_map. rewrite (Rmult_comm (sumR _ _)), <- Rmult_assoc, sumR_scal. apply sumR_ext. intros f _. ring.
Qed.
Lemma psd_one : psd_kernel (fun _ _ : X => 1 : car RF).
Proof.
  intros l. change (0 <= form (fun _ _ => 1) l). replace (form (fun _ _ => 1) l) with (sumR fst l * sumR fst l); [apply Rle_0_sqr|].
  unfold form. rewrite sumR_scal_r. apply sumR_ext. intros p _. rewrite sumR_scal. apply sumR_ext. intros q _. ring.
Qed.
Lemma psd_pull {Y} (K : Y -> Y -> RF) (f : X -> Y) : psd_kernel K -> psd_kernel (fun x y => K (f x) (f y)).
Proof.
  intros H l. pose proof (H (map (fun p => (fst p, f (snd p))) l)) as G.
  match type of G with 0 <= ?a => match goal with |- 0 <= ?b => replace b with a; [exact G|] end end.
  rewrite map_map. apply (sum_ext (F := RF)). intros p _. rewrite map_map. reflexivity.
Qed.
Lemma psd_ext K K' : (forall x y, K x y = K' x y) -> psd_kernel K -> psd_kernel K'.
Proof.
  intros E H l. pose proof (H l) as G. match type of G with 0 <= ?a => match goal with |- 0 <= ?b => replace b with a; [exact G|] end end.
  apply (sum_ext (F := RF)). intros p _. apply (sum_ext (F := RF)). intros q _. now rewrite E.
Qed.
End S.

Lemma tensor_sym n (g : nat -> R -> R -> R) : (forall m, (m < n)%nat -> forall x y, g m x y = g m y x) ->
  forall x y, @tensor RF R n g x y = @tensor RF R n g y x.
Proof. intros H x y. unfold tensor. f_equal. apply map_ext_in. intros m Hm. apply in_seq in Hm. apply H. lia. Qed.
Lemma tensor_psd n (g : nat -> R -> R -> R) : (forall m, (m < n)%nat -> sym (g m) /\ psd_kernel (g m : R -> R -> RF)) ->
  psd_kernel (fun x y : nat -> R => @tensor RF R n g x y).
Proof.
  intros H. unfold tensor. assert (G : forall l, (forall m, In m l -> (m < n)%nat) -> psd_kernel (fun x y : nat -> R => @fprod RF (map (fun m => g m (x m) (y m)) l))).
  { induction l as [|m l IH]; intros Hl; [apply psd_one|].
    apply (psd_ext (fun x y : nat -> R => (g m (x m) (y m) * @fprod RF (map (fun m => g m (x m) (y m)) l))%R)); [reflexivity|].
    destruct (H m) as [S P]; [apply Hl; now left|].
    apply (schur (fun x y : nat -> R => g m (x m) (y m)) (fun x y => @fprod RF (map (fun m => g m (x m) (y m)) l))).
    - intros x y. apply S.
    - apply (psd_pull (g m : R -> R -> RF) (fun x : nat -> R => x m) P).
    - apply IH. intros m' Hm'. apply Hl. now right. }
  apply G. intros m Hm. apply in_seq in Hm. lia.
Qed.
