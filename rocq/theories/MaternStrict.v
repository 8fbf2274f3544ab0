(** Matérn kernels of half-integer smoothness leave no combination of values at different
    points without variance. *)
From Coq Require Import List Arith Lia Reals Lra FunctionalExtensionality.
From Coquelicot Require Import Coquelicot.
From Verif Require Import Base NdArray FunExprModel DiffopSpec LfoModel LfoSpec LfoSmooth KernelModel KernelSpec KernelSmooth KernelProps ParamSpec ParamProofs TensorSchur PsdBase MaternPoly MaternProofs MaternUni PsdMatern PsdDiff PsdSpec
  PsdProps PdeCondBase PdeCondSpec SmoothSym GaussStrict.
Import ListNotations.
Open Scope R_scope.

(** ** A Matérn kernel is a mixture of Gaussians plus something positive semidefinite *)
Lemma mixand_sqdist {I} (s : list I) w x y u : 0 < u -> mixand (sqrt (sqdist s w x y) / 2) u = exp (- u ^ 2) * exp (- (/ (4 * u ^ 2)) * sqdist s w x y).
Proof.
  intros Hu. unfold mixand. rewrite <- exp_plus. f_equal.
  assert (Q : (sqrt (sqdist s w x y) / 2) ^ 2 = sqdist s w x y / 4).
  { unfold Rdiv. rewrite Rpow_mult_distr, pow2_sqrt by apply sqdist_nonneg. field. }
  rewrite Q. field. lra.
Qed.
Lemma mixand_psd {I} (s : list I) w p u : 0 < u -> psd_kernel (fun x y : I -> R => u ^ (2 * p) * mixand (sqrt (sqdist s w x y) / 2) u : car RF).
Proof.
  intros Hu. apply (psd_ext (fun x y : I -> R => (u ^ (2 * p) * exp (- u ^ 2)) * exp (- (/ (4 * u ^ 2)) * sqdist s w x y) : car RF)).
  - intros x y. rewrite mixand_sqdist by exact Hu. cbn [car RF]. ring.
  - apply psd_scal; [apply Rmult_le_pos; [apply pow_le; lra|left; apply exp_pos]|]. apply gauss_psd. left. apply Rinv_0_lt_compat. nra.
Qed.
Lemma NN_one : NN 1 = 2. Proof. reflexivity. Qed.
Lemma part_int p a b c : 0 < b -> b <= c -> ex_RInt (fun u => u ^ (2 * p) * mixand a u) b c.
Proof.
  intros Hb Hc. apply (@ex_RInt_continuous R_CompleteNormedModule). intros u Hu. rewrite Rmin_left in Hu by exact Hc. apply pm_cont. lra.
Qed.
Lemma moment_split p a n : moment p a (S n) = RInt (fun u => u ^ (2 * p) * mixand a u) (/ NN (S n)) (/ 2) + moment p a 1 + RInt (fun u => u ^ (2 * p) * mixand a u) 2 (NN (S n)).
Proof.
  assert (H : 2 <= NN (S n)) by (unfold NN; rewrite S_INR; pose proof (pos_INR n); rewrite S_INR; lra).
  assert (H' : 0 < / NN (S n) <= / 2) by (split; [apply Rinv_0_lt_compat; lra|apply Rinv_le_contravar; lra]).
  unfold moment. rewrite NN_one.
  rewrite <- (@RInt_Chasles R_CompleteNormedModule (fun u => u ^ (2 * p) * mixand a u) (/ NN (S n)) (/ 2) (NN (S n))) by (apply part_int; lra).
  rewrite <- (@RInt_Chasles R_CompleteNormedModule (fun u => u ^ (2 * p) * mixand a u) (/ 2) 2 (NN (S n))) by (apply part_int; lra).
  unfold plus. cbn. match goal with |- @eq _ ?a ?c => change (@eq R a c) end. ring.
Qed.
Lemma matern_split p : exists c, 0 < c /\ forall I (s : list I) w,
  psd_kernel (fun x y : I -> R => matern_half p (sqrt (sqdist s w x y)) - c * moment p (sqrt (sqdist s w x y) / 2) 1 : car RF).
Proof.
  destruct erf_limit as (C & PC & HC). pose proof (mixc_pos C p PC) as Pm. exists (/ mixc C p). split; [now apply Rinv_0_lt_compat|]. intros I s w.
  apply (psd_ext (fun x y : I -> R => / mixc C p * (mixc C p * matern_half p (2 * (sqrt (sqdist s w x y) / 2)) - moment p (sqrt (sqdist s w x y) / 2) 1) : car RF)).
  { intros x y. cbn [car RF]. replace (2 * (sqrt (sqdist s w x y) / 2)) with (sqrt (sqdist s w x y)) by field. field. lra. }
  apply (psd_scal (/ mixc C p)); [left; now apply Rinv_0_lt_compat|].
  apply (psd_lim (fun n x y => moment p (sqrt (sqdist s w x y) / 2) (S n) - moment p (sqrt (sqdist s w x y) / 2) 1)).
  - intros n. assert (H : 2 <= NN (S n)) by (unfold NN; rewrite !S_INR; pose proof (pos_INR n); lra).
    assert (H' : 0 < / NN (S n) <= / 2) by (split; [apply Rinv_0_lt_compat; lra|apply Rinv_le_contravar; lra]).
    apply (psd_ext (fun x y : I -> R => RInt (fun u => u ^ (2 * p) * mixand (sqrt (sqdist s w x y) / 2) u) (/ NN (S n)) (/ 2) + RInt (fun u => u ^ (2 * p) * mixand (sqrt (sqdist s w x y) / 2) u) 2 (NN (S n)) : car RF)).
    + intros x y. cbn [car RF]. rewrite moment_split. ring.
    + apply psd_add; apply psd_RInt; try lra; intros; try (apply mixand_psd; lra); apply part_int; lra.
  - intros x y. apply (is_lim_seq_minus' (fun n => moment p (sqrt (sqdist s w x y) / 2) (S n)) (fun _ => moment p (sqrt (sqdist s w x y) / 2) 1)); [|apply is_lim_seq_const].
    apply (is_lim_seq_incr_1 (moment p (sqrt (sqdist s w x y) / 2))). apply (moment_lim C); [exact HC|]. pose proof (sqrt_pos (sqdist s w x y)). lra.
Qed.

(** ** Integrals of forms *)
Lemma form_int {X} (Ku : R -> X -> X -> R) l a b : (forall p q, In p l -> In q l -> ex_RInt (fun u => Ku u (snd p) (snd q)) a b) ->
  is_RInt (fun u => form (Ku u) l) a b (form (fun x y => RInt (fun u => Ku u x y) a b) l).
Proof.
  intros E. unfold form.
  assert (G : forall p q : R * X, In p l -> In q l -> is_RInt (fun u => fst p * fst q * Ku u (snd p) (snd q)) a b (fst p * fst q * RInt (fun u => Ku u (snd p) (snd q)) a b)).
  { intros p q Hp Hq. apply (is_RInt_scal (V := R_NormedModule)). apply (RInt_correct (V := R_CompleteNormedModule)). now apply E. }
  assert (G' : forall p : R * X, In p l -> is_RInt (fun u => sumR (fun q => fst p * fst q * Ku u (snd p) (snd q)) l) a b (sumR (fun q => fst p * fst q * RInt (fun u => Ku u (snd p) (snd q)) a b) l)).
  { intros p Hp. rewrite (sumR_ext (fun q => fst p * fst q * RInt (fun u => Ku u (snd p) (snd q)) a b) (fun q => RInt (fun u => fst p * fst q * Ku u (snd p) (snd q)) a b)).
    2: { intros q Hq. symmetry. apply is_RInt_unique. now apply G. }
    apply (sumR_RInt (fun u q => fst p * fst q * Ku u (snd p) (snd q))). intros q Hq. eexists. now apply G. }
  rewrite (sumR_ext (fun p => sumR (fun q => fst p * fst q * RInt (fun u => Ku u (snd p) (snd q)) a b) l) (fun p => RInt (fun u => sumR (fun q => fst p * fst q * Ku u (snd p) (snd q)) l) a b)).
  2: { intros p Hp. symmetry. apply is_RInt_unique. now apply G'. }
  apply (sumR_RInt (fun u p => sumR (fun q => fst p * fst q * Ku u (snd p) (snd q)) l)). intros p Hp. eexists. now apply G'.
Qed.
Lemma cont_sumR {A} (h : A -> R -> R) l u : (forall a, In a l -> continuous (h a) u) -> continuous (fun v => sumR (fun a => h a v) l) u.
Proof.
  induction l as [|a l IH]; intros H.
  - apply (continuous_ext (fun _ => 0)); [reflexivity|apply continuous_const].
  - apply (continuous_ext (fun v => h a v + sumR (fun a => h a v) l)); [reflexivity|].
    apply (continuous_plus (h a) (fun v => sumR (fun a => h a v) l)); [apply H; now left|apply IH; intros; apply H; now right].
Qed.
Lemma cont_form {X} (Ku : R -> X -> X -> R) l u : (forall p q, In p l -> In q l -> continuous (fun v => Ku v (snd p) (snd q)) u) -> continuous (fun v => form (Ku v) l) u.
Proof.
  intros H. unfold form. apply (cont_sumR (fun p v => sumR (fun q => fst p * fst q * Ku v (snd p) (snd q)) l)). intros p Hp.
  apply (cont_sumR (fun q v => fst p * fst q * Ku v (snd p) (snd q))). intros q Hq.
  apply (continuous_scal (fun _ => fst p * fst q) (fun v => Ku v (snd p) (snd q))); [apply continuous_const|now apply H].
Qed.
Lemma form_sub {X} (K M : X -> X -> R) c l : form (fun x y => K x y - c * M x y) l = form K l - c * form M l.
Proof.
  unfold form. rewrite sumR_scal. replace (sumR (fun p => sumR (fun q => fst p * fst q * K (snd p) (snd q)) l) l - sumR (fun p => c * sumR (fun q => fst p * fst q * M (snd p) (snd q)) l) l)
    with (sumR (fun p => sumR (fun q => fst p * fst q * K (snd p) (snd q)) l) l + sumR (fun p => - c * sumR (fun q => fst p * fst q * M (snd p) (snd q)) l) l).
  2: { unfold Rminus. f_equal. rewrite <- !sumR_scal. ring. }
  rewrite <- sumR_add. apply sumR_ext. intros p _. rewrite sumR_scal, <- sumR_add. apply sumR_ext. intros q _. ring.
Qed.

(** ** Values at points *)
Definition nowhere (sh : shape) (l : list (R * array)) : Prop := forall phi : array -> R, (forall x y, agree sh x y -> phi x = phi y) -> sumR (fun p => phi (snd p) * fst p) l = 0.
Definition values (l : list (R * array)) : terms := map (fun p => (fst p, (OId [] [], snd p))) l.
Lemma values_form k l : dfun (values l) (fun x => dfun (values l) (k x)) = form k l.
Proof.
  unfold dfun, values, form. rewrite sumR_map. apply sumR_ext. intros p _. cbn [fst snd ksem]. rewrite sumR_map, sumR_scal. apply sumR_ext. intros q _. cbn [fst snd ksem]. ring.
Qed.
Lemma values_dom sh l : tdom sh (values l).
Proof. intros p Hp. apply in_map_iff in Hp as (q & <- & _). exact Logic.I. Qed.
Lemma nowhere_form sh k l : (forall z x y, agree sh x y -> k z x = k z y) -> nowhere sh l -> form k l = 0.
Proof.
  intros A N. unfold form. rewrite sumR_swap. rewrite <- (N (fun x => sumR (fun p => fst p * k (snd p) x) l)).
  - apply sumR_ext. intros q _. rewrite Rmult_comm, sumR_scal. apply sumR_ext. intros p _. ring.
  - intros x y Axy. apply sumR_ext. intros p _. now rewrite (A _ x y).
Qed.
Lemma expquad_agree sh w z x y : agree sh x y -> expquad_fun sh w z x = expquad_fun sh w z y.
Proof. intros A. unfold expquad_fun. f_equal. f_equal. apply total_ext. intros i Hi. apply all_indices_spec in Hi. now rewrite (A i Hi). Qed.
Lemma gauss_points sh w l : (forall i, valid_index sh i -> w i <> 0) -> (form (expquad_fun sh w) l = 0 <-> nowhere sh l).
Proof.
  intros L. split.
  - intros Z phi A. set (e := ExpQuad sh w).
    assert (P : kpos sh (KExp e)) by now constructor.
    pose proof (null_sections sh (expquad_fun sh w) (values l) (proj1 (kpos_class _ _ P)) (kpos_psd _ _ P) (kpos_sym _ _ P) (values_dom sh l)) as N.
    rewrite values_form in N. specialize (N Z).
    pose proof (gauss_universal sh w (values l) L (values_dom sh l) N phi (fun _ => 1) A (ci_const sh 1)) as G. rewrite <- G.
    unfold pfun, values. rewrite sumR_map. apply sumR_ext. intros p _. cbn [fst snd ksem]. ring.
  - apply nowhere_form. intros z x y. apply expquad_agree.
Qed.
Lemma mix_expquad sh w p x y u : 0 < u -> (forall i, valid_index sh i -> w i <> 0) ->
  u ^ (2 * p) * mixand (sqrt (sqdist (all_indices sh) w x y) / 2) u = u ^ (2 * p) * exp (- u ^ 2) * expquad_fun sh (fun i => sqrt 2 * u / w i) x y.
Proof.
  intros Hu L. rewrite mixand_sqdist by exact Hu. unfold expquad_fun, sqdist. rewrite sumR_total, Rmult_assoc. do 3 f_equal. rewrite <- !total_mult. apply total_ext.
  intros i Hi. apply all_indices_spec in Hi. specialize (L i Hi). assert (S2 : sqrt 2 <> 0) by (pose proof (sqrt_lt_R0 2); lra).
  replace (((x i - y i) / (sqrt 2 * u / w i)) ^ 2) with ((w i * (x i - y i)) ^ 2 / (sqrt 2 ^ 2 * u ^ 2)) by (field; repeat split; lra || assumption).
  rewrite pow2_sqrt by lra. field. lra.
Qed.
Lemma form_scal {X} (K : X -> X -> R) c l : form (fun x y => c * K x y) l = c * form K l.
Proof. unfold form. rewrite sumR_scal. apply sumR_ext. intros p _. rewrite sumR_scal. apply sumR_ext. intros q _. ring. Qed.
Lemma form_ext {X} (K M : X -> X -> R) l : (forall x y, K x y = M x y) -> form K l = form M l.
Proof. intros E. unfold form. apply sumR_ext. intros p _. apply sumR_ext. intros q _. now rewrite E. Qed.
Lemma matern_points sh w p l : (forall i, valid_index sh i -> w i <> 0) ->
  form (fun x y => matern_half p (sqrt (sqdist (all_indices sh) w x y))) l = 0 -> nowhere sh l.
Proof.
  intros L Z. destruct (matern_split p) as (c & Hc & P). specialize (P _ (all_indices sh) w l).
  set (K := fun x y => matern_half p (sqrt (sqdist (all_indices sh) w x y))) in *.
  set (G := fun u x y => u ^ (2 * p) * mixand (sqrt (sqdist (all_indices sh) w x y) / 2) u).
  change (0 <= form (fun x y => K x y - c * RInt (fun u => G u x y) (/ NN 1) (NN 1)) l) in P. rewrite form_sub, Z in P.
  assert (B := bounds 1). rewrite NN_one in B.
  pose proof (form_int G l (/ NN 1) (NN 1) (fun x y _ _ => ex_moment (fun u => u ^ (2 * p)) _ 1 (fun u _ => pow_cont _ u))) as I.
  assert (S2 : 0 < sqrt 2) by (apply sqrt_lt_R0; lra).
  assert (E : forall u, 0 < u -> (form (G u) l = 0 <-> nowhere sh l)).
  { intros u Hu. rewrite (form_ext (G u) _ l (fun x y => mix_expquad sh w p x y u Hu L)). rewrite (form_scal (expquad_fun sh (fun i => sqrt 2 * u / w i)) (u ^ (2 * p) * exp (- u ^ 2))). rewrite <- (gauss_points sh (fun i => sqrt 2 * u / w i) l).
    - split; [intros H; apply Rmult_integral in H as [H|H]; [exfalso|exact H]|intros ->; ring].
      pose proof (exp_pos (- u ^ 2)). pose proof (pow_lt u (2 * p) Hu). nra.
    - intros i Hi. specialize (L i Hi). unfold Rdiv. apply Rmult_integral_contrapositive_currified; [nra|now apply Rinv_neq_0_compat]. }
  destruct (Req_dec (form (G 1) l) 0) as [H1|H1]; [now apply (E 1); [lra|]|exfalso].
  assert (N : forall u, 0 < u -> 0 < form (G u) l).
  { intros u Hu. pose proof (mixand_psd (all_indices sh) w p u Hu l) as Q. change (0 <= form (G u) l) in Q. destruct Q as [Q|Q]; [exact Q|]. exfalso. apply H1. apply (E 1); [lra|]. now apply (E u Hu). }
  assert (0 < form (fun x y => RInt (fun u => G u x y) (/ NN 1) (NN 1)) l).
  { rewrite <- (is_RInt_unique _ _ _ _ I). apply RInt_gt_0; rewrite ?NN_one; [lra| |].
    - intros u Hu. apply N. lra.
    - intros u Hu. apply cont_form. intros x y _ _. apply pm_cont. lra. }
  nra.
Qed.
