(** C59: combinations of values and integrals of processes on the real line. *)
From Coq Require Import List Arith Lia Reals Lra Bool FunctionalExtensionality.
From Coquelicot Require Import Coquelicot.
From Verif Require Import Base NdArray NdData BlockModel PolyClassModel FunExprModel CovModel CrossModel LfoModel LfoSpec FunctlModel FunctlSpec FunctlProofs
  KernelModel KernelSpec MaternPoly MaternProps MaternProofs MaternUni ExpQuadProofs IntegralModel IntegralSpec IntegralProps ParamSpec ParamProofs TensorSchur PsdBase PsdDiff PsdIntegral RandProcModel RandProcSpec RandProcProofs RandProcProps ObsPsdProps.
Import ListNotations.
Open Scope R_scope.

(** Combinations, also with matrices, of values and integrals over intervals. *)
Fixpoint on_line (L : lfn) : Prop :=
  match L with
  | LEv _ => True
  | LInt a b _ => a <= b
  | LScaled _ M | LComp _ M None => on_line M
  | LSum Ls => fold_right (fun M P => on_line M /\ P) True Ls
  | LWeak _ | LAct _ _ _ _ | LComp _ _ (Some _) => False
  end.
Definition same_term (t : R * ((array -> R) -> R)) (o : R * obs) : Prop :=
  fst t = fst o /\ obs_ok (snd o) /\ forall g : R -> R, snd t (fun x => g (x [])) = obs_val (snd o) g.
Lemma F2_flat {A B C} (P : A -> B -> Prop) (f : C -> list A) (g : C -> list B) l : (forall c, In c l -> Forall2 P (f c) (g c)) -> Forall2 P (flat_map f l) (flat_map g l).
Proof. induction l as [|c l IH]; cbn [flat_map]; intros H; [constructor|]. apply Forall2_app; [apply H; now left|apply IH; intros; apply H; now right]. Qed.
Lemma F2_map {A B A' B'} (P : A -> B -> Prop) (Q : A' -> B' -> Prop) f g l m : (forall a b, P a b -> Q (f a) (g b)) -> Forall2 P l m -> Forall2 Q (map f l) (map g m).
Proof. intros H. induction 1; cbn [map]; constructor; auto. Qed.
Fixpoint oterms (L : lfn) (r : index) : list (R * obs) :=
  match L with
  | LEv e => [(1, At (point_at (ev_X e) r []))]
  | LInt a b _ => [(1, Int (fun _ => 1) a b)]
  | LWeak _ | LAct _ _ _ _ => []
  | LScaled s M => map (fun t => (s * fst t, snd t)) (oterms M r)
  | LSum Ls => flat_map (fun M => oterms M r) Ls
  | LComp (Some A) M _ => flat_map (fun k => map (fun t => (entry A (hd 0%nat r) k * fst t, snd t)) (oterms M [k])) (seq 0 (ncols A))
  | LComp None M _ => oterms M r
  end.
Lemma terms_same L r : on_line L -> Forall2 same_term (lterms L r) (oterms L r).
Proof.
  revert r. induction L as [e|a b cod|e|d c o act|s L IH|Ls IH|A L op IH] using lfn_induction; intros r HL; cbn [on_line lterms oterms] in *; try contradiction.
  - repeat constructor.
  - constructor; [|constructor]. split; [reflexivity|]. split; [split; [exact HL|intros; apply continuous_const]|]. intros g. cbn [snd obs_val]. apply RInt_ext. intros. symmetry. apply Rmult_1_l.
  - apply (F2_map same_term); [|now apply IH]. intros t o (E & O & H). cbn [fst snd]. split; [cbn [fst]; now rewrite E|split; [exact O|exact H]].
  - apply F2_flat. intros M HM. apply IH; [exact HM|]. clear - HL HM. induction Ls as [|N Ls IHs]; [easy|]. cbn [fold_right] in HL. destruct HM as [<-|HM]; [easy|]. now apply IHs.
  - destruct op as [P|]; [contradiction|]. cbn [pre_op]. destruct A as [A|].
    + apply F2_flat. intros k _. apply (F2_map same_term); [|now apply IH]. intros t o (E & O & H). cbn [fst snd pre_op]. split; [cbn [fst]; now rewrite E|split; [exact O|exact H]].
    + replace (map (fun t : R * ((array -> R) -> R) => (fst t, snd t)) (lterms L r)) with (lterms L r); [now apply IH|].
      rewrite <- (map_id (lterms L r)) at 1. apply map_ext. now intros [].
Qed.
Lemma weigh_same ts os (w : ((array -> R) -> R) -> R) (u : obs -> R) : Forall2 same_term ts os ->
  (forall l o, obs_ok o -> (forall g : R -> R, l (fun x => g (x [])) = obs_val o g) -> w l = u o) -> weigh ts w = sumR (fun o => fst o * u (snd o)) os.
Proof.
  intros H HW. unfold weigh. rewrite <- sumR_total. induction H as [|t o ts os (E & O & HT) H IH]; [reflexivity|]. rewrite !sumR_cons, IH, E, (HW (snd t) (snd o) O HT). reflexivity.
Qed.
Lemma lin_cov_line L k s r : on_line L -> lin_cov L (fun x y => k (x []) (y [])) s r =
  sumR (fun p => sumR (fun q => fst p * fst q * obs_cov k (snd p) (snd q)) (oterms L r)) (oterms L s).
Proof.
  intros HL. unfold lin_cov.
  rewrite (weigh_same _ (oterms L s) _ (fun o => sumR (fun q => fst q * obs_cov k o (snd q)) (oterms L r)) (terms_same L s HL)).
  - apply sumR_ext. intros p _. rewrite sumR_scal. apply sumR_ext. intros. ring.
  - intros l o O H. rewrite (weigh_same _ (oterms L r) _ (fun o' => obs_cov k o o') (terms_same L r HL)); [reflexivity|].
    intros l' o' O' H'. unfold obs_cov. rewrite <- (H (fun x => obs_val o' (k x))). f_equal. extensionality x. apply (H' (k (x []))).
Qed.
Lemma oterms_ok L r o : on_line L -> In o (oterms L r) -> obs_ok (snd o).
Proof. intros HL. pose proof (terms_same L r HL) as H. induction H as [|t p ts os (_ & O & _) H IH]; [easy|]. intros [<-|Hi]; auto. Qed.
(** Priors of C56 depend on the coordinate only. *)
Lemma prior_line k : line_prior k -> forall x y, ceval k x y = line k (x []) (y []).
Proof.
  induction 1 as [e Hs|m p Hs Hn Hl|s k Hs Hk IH|k ks Hks IH]; intros x y.
  - rewrite exp_line by exact Hs. rewrite ev_spec. unfold expquad_fun. rewrite Hs. cbn [all_indices map]. unfold total. cbn [fold_right]. now rewrite Rplus_0_r.
  - unfold line. rewrite (eval_line m p) by assumption. rewrite (ev_mat_spec m p Hn). unfold matern_fun, matern_line. f_equal. unfold wdist. rewrite Hs. cbn [all_indices map].
    unfold total. cbn [fold_right]. rewrite Rplus_0_r, <- Rsqr_pow2, sqrt_Rsqr_abs. unfold Rdiv. rewrite !Rabs_mult, (Rabs_pos_eq (sqrt _)) by apply sqrt_pos.
    rewrite (Rabs_pos_eq (/ mt_len m [])) by (left; now apply Rinv_0_lt_compat). ring.
  - unfold line in *. cbn [ceval]. now rewrite IH.
  - unfold line in *. cbn [ceval]. f_equal. apply map_ext_in. intros k' Hk'. now apply IH.
Qed.
(** The covariance of every combination of values and integrals, for these priors, is
    symmetric and positive semidefinite. *)
Theorem C59_integrals_psd : forall L k, on_line L -> line_prior k ->
  psd_kernel (lin_cov L (ceval k) : index -> index -> RF) /\ forall s r, lin_cov L (ceval k) s r = lin_cov L (ceval k) r s.
Proof.
  intros L k HL Hk. replace (ceval k) with (fun x y : array => line k (x []) (y [])) by (extensionality x; extensionality y; symmetry; now apply prior_line). split.
  - intros l. change (0 <= form (lin_cov L (fun x y => line k (x []) (y []))) l).
    rewrite (form_flat _ (obs_cov (line k)) (oterms L)) by (intros s r; now apply lin_cov_line).
    match goal with |- 0 <= form _ ?m => set (ms := m) end.
    assert (E : exists qs : list (R * {o : obs | obs_ok o}), ms = map (fun p => (fst p, proj1_sig (snd p))) qs).
    { assert (O : forall p, In p ms -> obs_ok (snd p)).
      { intros p Hp. apply in_flat_map in Hp as (q & _ & Hp). apply in_map_iff in Hp as (t & <- & Ht). cbn [snd]. exact (oterms_ok L (snd q) t HL Ht). }
      clearbody ms. clear - O. induction ms as [|[c o] ms IH]; [now exists []|]. destruct IH as [qs E]; [intros; apply O; now right|].
      exists ((c, exist obs_ok o (O (c, o) (or_introl eq_refl))) :: qs). cbn [map fst snd proj1_sig]. now rewrite E. }
    destruct E as [qs ->]. pose proof (obs_psd (line k) (prior_cont k Hk) (prior_line_psd k Hk) qs) as P. unfold form. rewrite sumR_map.
    rewrite (sumR_ext _ (fun p => sumR (fun q => fst p * fst q * obs_cov (line k) (proj1_sig (snd p)) (proj1_sig (snd q))) qs)); [exact P|].
    intros p _. now rewrite sumR_map.
  - intros s r. rewrite !lin_cov_line by exact HL. rewrite sumR_swap. apply sumR_ext. intros q Hq. apply sumR_ext. intros p Hp.
    rewrite (obs_sym (line k) (snd p) (snd q) (prior_cont k Hk) (prior_sym k Hk)); [ring|now apply (oterms_ok L s)|now apply (oterms_ok L r)].
Qed.
Print Assumptions C59_integrals_psd.
(** The mean value of a process minus its value at a point. *)
Example C59_integrals_example : on_line (LSum [LScaled (/ 2) (LInt 0 2 []); LScaled (-1) (LEv (mkevalf true [] [] (Nd [] (fun _ => 1 : RF))))]) /\
  line_prior (CMat (Matern [] (fun _ => 1) (HalfInt 2))).
Proof. split; [cbn; lra|apply (LPMat _ 2); cbn; auto; lra]. Qed.
