(** Linear combinations of derivatives at points as functionals of smooth functions, and
    their covariances. *)
From Coq Require Import List Reals Lra Lia Bool Arith FunctionalExtensionality.
From Verif Require Import Base NdArray FunExprModel DiffopModel DiffopSpec LfoModel LfoSpec LfoSmooth KernelModel KernelSpec KernelCalc KernelSmooth KernelSound
  KernelComm KernelProps ParamSpec TensorSpec TensorSchur PsdBase PsdDiff PsdSpec PsdProps.
Import ListNotations.
Open Scope R_scope.

(** A term: a coefficient, an operator and a point. *)
Definition terms := list (R * (lfo * array)).
Definition dfun (s : terms) (f : array -> R) : R := sumR (fun p => fst p * ksem (fst (snd p)) f (snd (snd p))) s.
Definition tdom (sh : shape) (s : terms) : Prop := forall p, In p s -> opdom sh (fst (snd p)).

Lemma ksem_smooth sh L f : opdom sh L -> smooth sh f -> smooth sh (ksem L f).
Proof.
  intros O S. rewrite (expand_sound sh L O f S). apply (smooth_sumR sh (fun p x => fst p * iterD (snd p) f x)).
  intros p Hp. apply smooth_scal. apply smooth_iterD; [exact S|]. now apply (expand_valid sh L O).
Qed.
Lemma ksem_lin sh L a f g : opdom sh L -> smooth sh f -> smooth sh g -> ksem L (fun x => a * f x + g x) = fun x => a * ksem L f x + ksem L g x.
Proof.
  intros O Sf Sg. assert (V := expand_valid sh L O). extensionality x.
  rewrite (expand_sound sh L O f Sf), (expand_sound sh L O g Sg), (expand_sound sh L O _ (smooth_lin sh a f g Sf Sg)).
  rewrite sumR_scal, <- sumR_add. apply sumR_ext. intros p Hp.
  pose proof (iterD_sumR sh (snd p) (fun b : bool => if b then a else 1) (fun b : bool => if b then f else g) [true; false]) as E.
  unfold sumR in E at 2. cbn [map fsum fold_right] in E.
  replace (fun x0 : array => sumR (fun b : bool => (if b then a else 1) * (if b then f else g) x0) [true; false]) with (fun x0 => a * f x0 + g x0) in E
    by (extensionality y; unfold sumR; cbn; ring).
  rewrite E; [|intros [|] _; assumption|now apply V]. unfold sumR. cbn. ring.
Qed.
Lemma dfun_add sh s f g : tdom sh s -> smooth sh f -> smooth sh g -> dfun s (fun x => f x + g x) = dfun s f + dfun s g.
Proof.
  intros T Sf Sg. unfold dfun. rewrite <- sumR_add. apply sumR_ext. intros p Hp.
  replace (fun x => f x + g x) with (fun x => 1 * f x + g x) by (extensionality y; ring).
  rewrite (ksem_lin sh _ 1 f g (T p Hp) Sf Sg). ring.
Qed.
Lemma dfun_scal sh s t f : tdom sh s -> smooth sh f -> dfun s (fun x => t * f x) = t * dfun s f.
Proof.
  intros T Sf. unfold dfun. rewrite sumR_scal. apply sumR_ext. intros p Hp.
  assert (E : ksem (fst (snd p)) (fun x => t * f x + 0) = fun x => t * ksem (fst (snd p)) f x + ksem (fst (snd p)) (fun _ => 0) x)
    by (apply (ksem_lin sh); [now apply T|exact Sf|apply smooth_const]).
  assert (Z : ksem (fst (snd p)) (fun _ => 0) = fun x => -1 * ksem (fst (snd p)) (fun _ => 0) x + ksem (fst (snd p)) (fun _ => 0) x).
  { rewrite <- (ksem_lin sh) by (try apply smooth_const; now apply T). f_equal. extensionality y. ring. }
  assert (Z0 : forall x, ksem (fst (snd p)) (fun _ => 0) x = 0) by (intros x; rewrite Z; ring).
  replace (fun x => t * f x) with (fun x => t * f x + 0) by (extensionality y; ring). rewrite E, Z0. ring.
Qed.
(** Composition with an operator. *)
Definition tcomp (L : lfo) (s : terms) : terms := map (fun p => (fst p, (OComp [fst (snd p); L], snd (snd p)))) s.
Lemma dfun_comp L s f : dfun s (ksem L f) = dfun (tcomp L s) f.
Proof. unfold dfun, tcomp. rewrite sumR_map. reflexivity. Qed.
Lemma tdom_comp sh L s : opdom sh L -> tdom sh s -> tdom sh (tcomp L s).
Proof. intros O T p Hp. apply in_map_iff in Hp as (q & <- & Hq). cbn. auto. Qed.

Section K.
Variables (sh : shape) (k : kernel).
Hypothesis Kk : kclass sh k.
Lemma dfun_section s : tdom sh s -> smooth sh (fun x => dfun s (k x)).
Proof.
  intros T. unfold dfun. apply (smooth_sumR sh (fun p x => fst p * ksem (fst (snd p)) (k x) (snd (snd p)))). intros p Hp. apply smooth_scal.
  exact (proj1 (class_smooth sh _ (proj1 (lin_ksem sh 1 _ (T p Hp)) k Kk)) (snd (snd p))).
Qed.
Lemma dfun_sumR {A} s (c : A -> R) (h : A -> array -> R) l : tdom sh s -> (forall a, In a l -> smooth sh (h a)) ->
  dfun s (fun x => sumR (fun a => c a * h a x) l) = sumR (fun a => c a * dfun s (h a)) l.
Proof.
  intros T H. induction l as [|a l IH].
  - unfold sumR at 2. cbn. change (dfun s (fun x => 0) = 0). replace (fun _ : array => 0) with (fun _ : array => 0 * 0) by (extensionality y; ring).
    rewrite (dfun_scal sh s 0 (fun _ => 0) T (smooth_const sh 0)). ring.
  - rewrite sumR_cons. rewrite <- IH by (intros b Hb; apply H; now right).
    rewrite <- (dfun_scal sh s (c a) (h a) T) by (apply H; now left).
    rewrite <- (dfun_add sh s); [reflexivity|exact T|apply smooth_scal, H; now left|].
    apply (smooth_sumR sh (fun a x => c a * h a x)). intros b Hb. apply smooth_scal, H. now right.
Qed.
(** The covariance of two functionals, term by term. *)
Lemma dfun_two s t : tdom sh s -> tdom sh t -> dfun s (fun x => dfun t (k x)) = sumR (fun p => sumR (fun q => fst p * fst q * opk k (snd p) (snd q)) t) s.
Proof.
  intros S T. unfold dfun at 2. rewrite (dfun_sumR s (fun q => fst q) (fun q x => ksem (fst (snd q)) (k x) (snd (snd q)))); [|exact S|].
  2: { intros q Hq. exact (proj1 (class_smooth sh _ (proj1 (lin_ksem sh 1 _ (T q Hq)) k Kk)) (snd (snd q))). }
  unfold dfun. rewrite (sumR_ext _ (fun q => sumR (fun p => fst p * fst q * opk k (snd p) (snd q)) s)).
  - now rewrite sumR_swap.
  - intros q Hq. rewrite sumR_scal. apply sumR_ext. intros p Hp.
    assert (E : opk k (snd p) (snd q) = ksem (fst (snd p)) (fun x => ksem (fst (snd q)) (k x) (snd (snd q))) (snd (snd p))).
    { unfold opk. now rewrite <- (comm_args sh (fst (snd p)) (fst (snd q)) k (S p Hp) (T q Hq) Kk). }
    rewrite E. ring.
Qed.
Lemma opk_sym L M x y : opdom sh L -> opdom sh M -> (forall x y, k x y = k y x) -> opk k (L, x) (M, y) = opk k (M, y) (L, x).
Proof.
  intros OL OM S. unfold opk at 2. cbn [fst snd]. rewrite <- (comm_args sh M L k OM OL Kk). unfold opk, in_arg. cbn [fst snd].
  f_equal. extensionality z. f_equal. extensionality u. apply S.
Qed.
Lemma dfun_sym s t : tdom sh s -> tdom sh t -> (forall x y, k x y = k y x) -> dfun s (fun x => dfun t (k x)) = dfun t (fun x => dfun s (k x)).
Proof.
  intros S T H. rewrite !dfun_two by assumption. rewrite sumR_swap. apply sumR_ext. intros [c [L x]] Hq. apply sumR_ext. intros [d [M y]] Hp. cbn [fst snd].
  rewrite (opk_sym M L y x (S _ Hp) (T _ Hq) H). ring.
Qed.
Lemma dfun_nonneg s : psd_kernel (k : array -> array -> RF) -> tdom sh s -> 0 <= dfun s (fun x => dfun s (k x)).
Proof. intros P T. rewrite (dfun_two s s T T). exact (ops_psd sh k Kk P s T). Qed.
End K.

(** The covariance functions of [PsdSpec.kpos]. *)
Lemma kpos_sym sh e : kpos sh e -> forall x y, kmean e x y = kmean e y x.
Proof.
  intros H. induction H as [e E|s e Hs He IH|e e' He IH He' IH'|L e OL DL He IH]; intros x y; cbn [kmean].
  - unfold expquad_fun. f_equal. f_equal. apply total_ext. intros i _. unfold Rdiv. ring.
  - now rewrite IH.
  - now rewrite IH, IH'.
  - exact (opk_sym sh (kmean e) (proj1 (kpos_class sh e He)) L L x y DL DL IH).
Qed.
(** What the library computes for two observations is their covariance. *)
Lemma obs_cov_value fuel sh e k p q c : kpos sh e -> kbuild fuel e = Ok k -> okop (obs_op (fst p)) -> okop (obs_op (fst q)) ->
  opdom sh (obs_op (fst p)) -> opdom sh (obs_op (fst q)) -> obs_cov fuel k p q = Ok c ->
  c = ksem (obs_op (fst p)) (fun x => ksem (obs_op (fst q)) (kmean e x) (snd q)) (snd p).
Proof.
  intros H B Op Oq Dp Dq R. destruct (kpos_class sh e H) as [Kx Ox]. destruct p as [o y], q as [o' y']. cbn [fst snd] in *. unfold obs_cov in R. cbn [fst snd] in R.
  apply LfoProofs.bind_ok in R as (k0 & R0 & R). apply LfoProofs.bind_ok in R as (k1 & R1 & R).
  destruct (obs_apply fuel e k o 0 k0 Ox B (or_introl eq_refl) Op R0) as (e0 & O0 & B0 & M0).
  destruct (obs_apply fuel e0 k0 o' 1 k1 O0 B0 (or_intror eq_refl) Oq R1) as (e1 & O1 & B1 & M1).
  assert (N : k1 <> CNotImpl) by (intros ->; discriminate).
  assert (V : c = ceval k1 y y') by (destruct k1; congruence).
  rewrite V, (C33_sound fuel e1 k1 O1 B1 N y y'), M1, M0. rewrite <- (comm_args sh (obs_op o) (obs_op o') (kmean e) Dp Dq Kx). reflexivity.
Qed.
