(** Squared exponential and Matérn kernels on the line: combinations of values and
    integrals without variance vanish on all infinitely differentiable functions. *)
From Coq Require Import List Arith Lia Reals Lra FunctionalExtensionality.
From Coquelicot Require Import Coquelicot.
From Verif Require Import Base NdArray FunExprModel DiffopModel DiffopSpec LfoModel LfoSpec LfoSmooth KernelModel KernelSpec KernelSmooth KernelProps
  ParamSpec ParamProofs TensorSchur PsdBase MaternPoly MaternProofs MaternUni ExpQuadProofs PsdMatern PsdDiff PsdSpec
  PsdProps PdeCondBase PdeCondSpec SmoothSym GaussStrict IntegralModel IntegralSpec IntegralProofs IntegralProps PsdIntegral ObsPsdProps LineObs MaternStrict.
Import ListNotations.
Open Scope R_scope.
Notation At := PsdIntegral.At. Notation Int := PsdIntegral.Int.

Definition ivals := list (R * iobs).
Definition terms_of (s : ivals) : oterms := map (fun p => (fst p, to_obs (snd p))) s.
Definition idom (s : ivals) : Prop := forall p, In p s -> iobs_ok (snd p).
Lemma terms_of_dom s : idom s -> odom (terms_of s).
Proof. intros H p Hp. apply in_map_iff in Hp as (q & <- & Hq). cbn [snd]. apply to_obs_ok. now apply H. Qed.
Definition onl (f : array -> R) : R -> R := fun t => f (pt t).
Definition partial : lfo := ODiff (DDir [] (fun _ => 1)).
Lemma partial_sem f x : ksem partial f x = pd [] f x.
Proof. unfold partial. cbn [ksem dsem all_indices map]. unfold total. cbn [fold_right]. ring. Qed.
(** The derivatives of the observed quantities. *)
Definition dterm (p : R * iobs) : terms :=
  match snd p with
  | Value x => [(fst p, (partial, pt x))]
  | Integral a b => [(fst p, (OId [] [], pt b)); (- fst p, (OId [] [], pt a))]
  end.
Definition dterms (s : ivals) : terms := flat_map dterm s.
Lemma dterms_dom s : tdom [] (dterms s).
Proof.
  intros p Hp. apply in_flat_map in Hp as ((c & [x|a b]) & _ & Hp); cbn in Hp.
  - destruct Hp as [<-|[]]. reflexivity.
  - destruct Hp as [<-|[<-|[]]]; exact Logic.I.
Qed.
Definition unseen (s : ivals) : Prop := forall phi : array -> R, (forall x y, agree [] x y -> phi x = phi y) -> forall f, c_infty [] f -> pfun phi (dterms s) f = 0.
Lemma pfun_dterms phi s f : pfun phi (dterms s) f = sumR (fun p => fst p * match snd p with Value x => phi (pt x) * pd [] f (pt x) | Integral a b => phi (pt b) * f (pt b) - phi (pt a) * f (pt a) end) s.
Proof.
  unfold pfun, dterms. rewrite sumR_flat. apply sumR_ext. intros (c & [x|a b]) _; unfold dterm; cbn [fst snd]; rewrite !sumR_cons; cbn [fst snd]; change (sumR _ []) with 0; rewrite ?partial_sem; cbn [ksem]; ring.
Qed.

(** ** Antiderivatives *)
Definition anti (f : array -> R) : array -> R := fun a => RInt (onl f) 0 (a []).
Lemma onl_derive f t : smooth [] f -> is_derive (onl f) t (pd [] f (pt t)).
Proof.
  intros S. pose proof (S [] (List.Forall_nil _) (fun _ => 1) (pt t)) as D. cbn [all_indices map iterD fold_left] in D. unfold total in D. cbn [fold_right] in D.
  replace (1 * pd [] f (pt t) + 0) with (pd [] f (pt t)) in D by ring.
  apply (is_derive_ext (fun u => (fun t0 => f (fun j => pt t j + t0 * 1)) (u - t))).
  - intros u. unfold onl. f_equal. extensionality j. unfold pt. match goal with |- @eq _ ?a ?c => change (@eq R a c) end. ring.
  -
    evar_last.
    + apply (is_derive_comp (fun t0 => f (fun j => pt t j + t0 * 1)) (fun u => u - t)).
      * replace (t - t) with 0 by ring. exact D.
      * auto_derive; [trivial|]. reflexivity.
    + unfold scal. cbn. unfold mult. cbn. ring.
Qed.
Lemma onl_cont f : smooth [] f -> cont (onl f).
Proof. intros S t. apply (ex_derive_continuous (onl f)). eexists. now apply onl_derive. Qed.
Lemma agree_pt f x : smooth [] f -> f x = onl f (x []).
Proof. intros S. apply (smooth_agree [] f x (pt (x [])) S). intros i Hi. destruct i; [reflexivity|inversion Hi]. Qed.
Lemma anti_derive f t : smooth [] f -> is_derive (RInt (onl f) 0) t (onl f t).
Proof.
  intros S. apply (is_derive_RInt (onl f) (RInt (onl f) 0) 0 t).
  - exists (mkposreal 1 ltac:(lra)). intros b _. apply (@RInt_correct R_CompleteNormedModule). apply cont_ex. now apply onl_cont.
  - now apply onl_cont.
Qed.
Lemma pd_anti f : smooth [] f -> pd [] (anti f) = f.
Proof.
  intros S. extensionality x. unfold pd, anti. rewrite (agree_pt f x S).
  rewrite (Derive_ext _ (fun t => RInt (onl f) 0 t)); [apply is_derive_unique; now apply anti_derive|]. intros t. unfold upd. reflexivity.
Qed.
Lemma valid_nil i : valid_index [] i -> i = [].
Proof. destruct i; [reflexivity|intros H; inversion H]. Qed.
Lemma ci_anti f : c_infty [] f -> c_infty [] (anti f).
Proof.
  intros [S C]. split.
  - intros [|i l] Hl v x.
    + cbn [iterD fold_left all_indices map]. unfold total. cbn [fold_right]. rewrite pd_anti by exact S. rewrite (agree_pt f x S). unfold anti. evar_last.
      * apply (is_derive_comp (RInt (onl f) 0) (fun t => x [] + t * v [])); [apply anti_derive; exact S|]. auto_derive; [trivial|reflexivity].
      * unfold scal. cbn. unfold mult. cbn. rewrite Rmult_0_l, !Rplus_0_r, Rmult_1_l. reflexivity.
    + inversion Hl as [|? ? Hi Hl']; subst. apply valid_nil in Hi. subst i. change (iterD ([] :: l) (anti f)) with (iterD l (pd [] (anti f))). rewrite pd_anti by exact S. now apply S.
  - intros w i j _ Hi Hj. apply valid_nil in Hi, Hj. now subst.
Qed.
Lemma unseen_zero s f : unseen s -> idom s -> c_infty [] f -> ofun (terms_of s) (onl f) = 0.
Proof.
  intros U D C. specialize (U (fun _ => 1) (fun _ _ _ => eq_refl) (anti f) (ci_anti f C)). rewrite pfun_dterms in U. rewrite <- U. unfold ofun, terms_of. rewrite sumR_map.
  apply sumR_ext. intros (c & [x|a b]) Hp; cbn [fst snd to_obs obs_val]; f_equal.
  - rewrite pd_anti by apply C. unfold onl. ring.
  - rewrite one_int. unfold anti. pose proof (rint_chasles (onl f) 0 a b (onl_cont f (proj1 C))) as E.
    assert (E' : forall u v w : R, u = v + w -> w = 1 * u - 1 * v) by (intros; lra). exact (E' _ _ _ E).
Qed.

(** ** Gaussians *)
Section Gauss.
Variable l : R.
Hypothesis Hl : l <> 0.
Definition gl (x y : R) : R := exp (- / 2 * ((x - y) / l) ^ 2).
Lemma gl_sym x y : gl x y = gl y x. Proof. unfold gl. f_equal. field. exact Hl. Qed.
Notation e := (ExpQuad [] (fun _ => l)).
Lemma gl_line : gl = line (CExp e).
Proof. extensionality x. extensionality y. now rewrite exp_line. Qed.
Lemma gl_fun z : gl z = onl (expquad_fun [] (fun _ => l) (pt z)).
Proof. extensionality y. unfold gl, onl, expquad_fun. cbn [all_indices map]. unfold total. cbn [fold_right]. now rewrite Rplus_0_r. Qed.
Lemma gl_prior : line_prior (CExp e). Proof. now constructor. Qed.
Lemma gl_cont : cont2 gl. Proof. rewrite gl_line. apply prior_cont, gl_prior. Qed.
Lemma gl_psd : psd_kernel (gl : R -> R -> RF). Proof. rewrite gl_line. apply prior_line_psd, gl_prior. Qed.
Definition gp0 (u : R) : R := exp (- / 2 * (u / l) ^ 2).
Definition gp1 (u : R) : R := - (u / l ^ 2) * gp0 u.
Lemma gp0_derive u : is_derive gp0 u (gp1 u).
Proof. unfold gp0, gp1. auto_derive; [trivial|]. unfold gp0. replace (- / 2 * (u * / l * (u * / l * 1))) with (- / 2 * (u / l) ^ 2) by (unfold Rdiv; ring). field. exact Hl. Qed.
Lemma gp0_cont : cont gp0.
Proof. intros u. apply (ex_derive_continuous gp0). eexists. apply gp0_derive. Qed.
Lemma gl_gp0 z x : gl z x = gp0 (x - z). Proof. rewrite gl_sym. reflexivity. Qed.
Lemma exq_smooth z : smooth [] (expquad_fun [] (fun _ => l) z).
Proof. assert (P : kpos [] (KExp e)) by now constructor. exact (proj2 (class_smooth [] _ (proj1 (kpos_class _ _ P))) z). Qed.
Lemma exq_ci z : c_infty [] (expquad_fun [] (fun _ => l) z).
Proof. assert (P : kpos [] (KExp e)) by now constructor. exact (ci_kclass1 [] _ z (proj1 (kpos_class _ _ P))). Qed.
Lemma gl_derive z x : is_derive (gl z) x (gp1 (x - z)).
Proof.
  apply (is_derive_ext (fun x => gp0 (x - z))); [intros; symmetry; apply gl_gp0|]. evar_last.
  - apply (is_derive_comp gp0 (fun x => x - z)); [apply gp0_derive|]. auto_derive; [trivial|reflexivity].
  - unfold scal. cbn. unfold mult. cbn. ring.
Qed.
Lemma exq_pd z x : pd [] (expquad_fun [] (fun _ => l) (pt z)) (pt x) = gp1 (x - z).
Proof.
  pose proof (onl_derive _ x (exq_smooth (pt z))) as D. rewrite <- gl_fun in D. apply is_derive_unique in D. rewrite <- D. apply is_derive_unique, gl_derive.
Qed.
Lemma section_derive s z : is_derive (fun z => ofun (terms_of s) (gl z)) z (- dfun (dterms s) (expquad_fun [] (fun _ => l) (pt z))).
Proof.
  rewrite <- pfun_one, pfun_dterms. unfold ofun, terms_of. induction s as [|[c o] s IH].
  - replace (- sumR _ []) with 0 by (unfold sumR; cbn; ring). apply (is_derive_ext (fun _ => 0)); [reflexivity|]. apply (is_derive_const 0 z).
  - cbn [map]. rewrite sumR_cons. set (A := fst (c, o) * _). set (B := sumR _ s) in *.
    apply (is_derive_ext (fun z => c * obs_val (to_obs o) (gl z) + sumR (fun p => fst p * obs_val (snd p) (gl z)) (map (fun p => (fst p, to_obs (snd p))) s))).
    + intros w. rewrite sumR_cons. reflexivity.
    + replace (- (A + B)) with (- A + - B) by ring.
      apply (is_derive_plus (fun z => c * obs_val (to_obs o) (gl z)) (fun z => sumR (fun p => fst p * obs_val (snd p) (gl z)) (map (fun p => (fst p, to_obs (snd p))) s))); [|exact IH].
      unfold A. cbn [fst snd]. destruct o as [x|a b]; cbn [to_obs obs_val].
      * rewrite exq_pd. apply (is_derive_ext (fun z => c * gp0 (x - z))); [intros; now rewrite gl_gp0|]. evar_last.
        -- apply is_derive_scal. apply (is_derive_comp gp0 (fun z => x - z)); [apply gp0_derive|]. auto_derive; [trivial|reflexivity].
        -- unfold scal. cbn. unfold mult. cbn. ring.
      * assert (Dg : forall u, is_derive (RInt gp0 0) u (gp0 u)).
        { intros u. apply (is_derive_RInt gp0 (RInt gp0 0) 0 u); [|apply gp0_cont]. exists (mkposreal 1 ltac:(lra)). intros w _. apply (@RInt_correct R_CompleteNormedModule). apply cont_ex, gp0_cont. }
        apply (is_derive_ext (fun z => c * (RInt gp0 0 (b - z) - RInt gp0 0 (a - z)))).
        { intros w. f_equal. rewrite one_int. rewrite (RInt_ext (gl w) (fun x => gp0 (x - w))) by (intros; apply gl_gp0).
          assert (I : is_RInt (fun x => gp0 (x - w)) a b (RInt gp0 0 (b - w) - RInt gp0 0 (a - w))).
          { apply (is_RInt_derive (fun x => RInt gp0 0 (x - w)) (fun x => gp0 (x - w))).
            - intros x _. evar_last; [apply (is_derive_comp (RInt gp0 0) (fun x => x - w)); [apply Dg|auto_derive; [trivial|reflexivity]]|]. unfold scal. cbn. unfold mult. cbn. ring.
            - intros x _. apply (ex_derive_continuous (fun x => gp0 (x - w))). unfold gp0. auto_derive. trivial. }
          symmetry. apply is_RInt_unique. exact I. }
        change (expquad_fun [] (fun _ => l) (pt z) (pt b)) with (onl (expquad_fun [] (fun _ => l) (pt z)) b). change (expquad_fun [] (fun _ => l) (pt z) (pt a)) with (onl (expquad_fun [] (fun _ => l) (pt z)) a).
        rewrite <- gl_fun, !gl_gp0. evar_last.
        -- apply is_derive_scal. apply (is_derive_minus (fun z => RInt gp0 0 (b - z)) (fun z => RInt gp0 0 (a - z))).
           ++ apply (is_derive_comp (RInt gp0 0) (fun z => b - z)); [apply Dg|auto_derive; [trivial|reflexivity]].
           ++ apply (is_derive_comp (RInt gp0 0) (fun z => a - z)); [apply Dg|auto_derive; [trivial|reflexivity]].
        -- unfold minus, plus, opp, scal. cbn. unfold mult. cbn. ring.
Qed.
Lemma gauss_unseen s : idom s -> (ofun (terms_of s) (fun x => ofun (terms_of s) (gl x)) = 0 <-> unseen s).
Proof.
  intros D. pose proof (terms_of_dom s D) as T. split.
  - intros Z. pose proof (onull_section gl (terms_of s) gl_cont gl_psd gl_sym T Z) as N. intros phi A f C.
    apply (gauss_universal [] (fun _ => l) (dterms s)); [intros; exact Hl|apply dterms_dom| |exact A|exact C].
    intros z. assert (E : expquad_fun [] (fun _ => l) z = expquad_fun [] (fun _ => l) (pt (z []))).
    { extensionality y. unfold expquad_fun. reflexivity. }
    rewrite E. pose proof (section_derive s (z [])) as Dv.
    assert (D0 : is_derive (fun z => ofun (terms_of s) (gl z)) (z []) 0). { apply (is_derive_ext (fun _ => 0)); [intros; now rewrite N|]. apply (is_derive_const 0 (z [])). }
    apply is_derive_unique in Dv. apply is_derive_unique in D0. rewrite D0 in Dv. lra.
  - intros U. assert (Z : forall x, ofun (terms_of s) (gl x) = 0) by (intros x; rewrite gl_fun; apply unseen_zero; [exact U|exact D|apply exq_ci]).
    replace (fun x => ofun (terms_of s) (gl x)) with (fun x : R => 0 * 0) by (extensionality x; rewrite Z; ring).
    rewrite ofun_scal; [ring|exact T|intros x; apply continuous_const].
Qed.
End Gauss.

(** ** Mixtures *)
Lemma conv_cont2 (g : R -> R) (G : R -> R -> R) c d : c <= d -> cont g -> cont2 G -> cont2 (fun u s => RInt (fun t => g t * G u (s - t)) c d).
Proof.
  intros Hcd Cg HG u s e.
  assert (Bg : exists B, 0 < B /\ forall t, c <= t <= d -> Rabs (g t) <= B).
  { destruct (continuity_ab_maj (fun t => Rabs (g t)) c d Hcd) as (M & HM & _).
    - intros t _. apply (continuity_pt_comp g Rabs); [apply continuity_pt_filterlim, Cg|apply Rcontinuity_abs].
    - exists (Rabs (g M) + 1). split; [pose proof (Rabs_pos (g M)); lra|]. intros t Ht. specialize (HM t Ht). lra. }
  destruct Bg as (B & PB & HB). pose proof (cond_pos e) as Pe.
  assert (He' : 0 < e / 2 / (B * (d - c + 1))) by (apply Rdiv_lt_0_compat; [lra|]; apply Rmult_lt_0_compat; lra).
  destruct (unif G (u - 1) (u + 1) (s - 1 - d) (s + 1 - c) HG (mkposreal _ He')) as [dl Hd].
  assert (Pd : 0 < Rmin dl 1) by (apply Rmin_pos; [apply cond_pos|lra]). exists (mkposreal _ Pd). cbn [pos]. intros v t Hv Ht.
  pose proof (Rmin_l dl 1). pose proof (Rmin_r dl 1).
  assert (Hv1 : Rabs (v - u) < 1) by lra. assert (Ht1 : Rabs (t - s) < 1) by lra. apply Rabs_def2 in Hv1. apply Rabs_def2 in Ht1.
  assert (Cn : forall w r, cont (fun x => g x * G w (r - x))).
  { intros w r. unfold cont. refine (PsdIntegral.cmul _ _ Cg _). intros x. apply (continuous_comp (fun x : R => r - x) (G w)); [|exact (cont2_right G w HG (r - x))].
    apply (ex_derive_continuous (fun x => r - x)). auto_derive. trivial. }
  rewrite <- (rint_minus (fun x => g x * G v (t - x)) (fun x => g x * G u (s - x))) by apply Cn.
  eapply Rle_lt_trans; [apply (abs_RInt_le_const _ c d (B * (e / 2 / (B * (d - c + 1)))) Hcd)|].
  - apply cont_ex. intros x. apply (@continuous_minus R_UniformSpace R_AbsRing R_NormedModule (fun x => g x * G v (t - x)) (fun x => g x * G u (s - x))); apply Cn.
  - intros x Hx. replace (g x * G v (t - x) - g x * G u (s - x)) with (g x * (G v (t - x) - G u (s - x))) by ring. rewrite Rabs_mult.
    apply Rmult_le_compat; [apply Rabs_pos|apply Rabs_pos|now apply HB|]. left. apply Hd; try lra. replace (t - x - (s - x)) with (t - s) by ring. lra.
  - replace (B * (e / 2 / (B * (d - c + 1)))) with (e / 2 / (d - c + 1)) by (field; lra).
    apply Rle_lt_trans with (e / 2); [|lra]. replace (e / 2) with ((d - c + 1) * (e / 2 / (d - c + 1))) at 2 by (field; lra).
    assert (0 < e / 2 / (d - c + 1)) by (apply Rdiv_lt_0_compat; lra). nra.
Qed.
Lemma val_cont2 G o : cont2 G -> obs_ok o -> cont2 (fun u x => obs_val o (fun y => G u (x - y))).
Proof.
  intros HG Ho. destruct o as [y|g a b]; cbn [obs_val].
  - intros u x e. destruct (HG u (x - y) e) as [d Hd]. exists d. intros v t Hv Ht. apply Hd; [exact Hv|]. replace (t - y - (x - y)) with (t - x) by ring. exact Ht.
  - destruct Ho as [Hab Cg]. now apply conv_cont2.
Qed.
Lemma val_int P o a b : a <= b -> cont2 P -> obs_ok o -> obs_val o (fun x => RInt (fun u => P u x) a b) = RInt (fun u => obs_val o (P u)) a b.
Proof.
  intros Hab HP Ho. destruct o as [y|g c d]; cbn [obs_val]; [reflexivity|]. destruct Ho as [Hcd Cg].
  rewrite <- (fubini (fun t u => g t * P u t) c d a b Hcd Hab); [|apply cont2_mult; [now apply cont2_fst|now apply cont2_swap]].
  apply RInt_ext. intros t _. pose proof (@RInt_scal R_CompleteNormedModule (fun u => P u t) a b (g t)) as E. symmetry. apply E. apply cont_ex.
  exact (cont2_left P t HP).
Qed.
Lemma cov_int G o o' a b : a <= b -> cont2 G -> obs_ok o -> obs_ok o' ->
  obs_cov (fun x y => RInt (fun u => G u (x - y)) a b) o o' = RInt (fun u => obs_cov (fun x y => G u (x - y)) o o') a b /\
  cont (fun u => obs_cov (fun x y => G u (x - y)) o o').
Proof.
  intros Hab HG Ho Ho'. set (P := fun u x => obs_val o' (fun y => G u (x - y))). assert (HP : cont2 P) by now apply val_cont2.
  split.
  - transitivity (RInt (fun u => obs_val o (P u)) a b); [|reflexivity]. rewrite <- (val_int P o a b Hab HP Ho). unfold obs_cov. f_equal. extensionality x.
    apply (val_int (fun u y => G u (x - y)) o' a b Hab); [|exact Ho'].
    intros u y e. destruct (HG u (x - y) e) as [d Hd]. exists d. intros v t Hv Ht. apply Hd; [exact Hv|]. replace (x - t - (x - y)) with (- (t - y)) by ring. now rewrite Rabs_Ropp.
  - intros u. exact (val_cont P o HP Ho u).
Qed.

(** ** Matérn kernels *)
Section Mat.
Variables (p : nat) (w : R).
Hypothesis Hw : w <> 0.
(** The mixed Gaussians, kept away from width zero. *)
Definition mixG (u a : R) : R := (Rmax u (/ 2)) ^ (2 * p) * mixand (Rabs (w * a) / 2) (Rmax u (/ 2)).
Definition matl (x y : R) : R := matern_half p (Rabs (w * (x - y))).
Lemma one_sqdist (x y : R) : sqdist [tt] (fun _ => w) (fun _ => x) (fun _ => y) = (w * (x - y)) ^ 2.
Proof. unfold sqdist, sumR. cbn [map fsum fold_right]. cbn. ring. Qed.
Lemma one_dist (x y : R) : sqrt (sqdist [tt] (fun _ => w) (fun _ => x) (fun _ => y)) = Rabs (w * (x - y)).
Proof. rewrite one_sqdist. rewrite <- Rsqr_pow2. apply sqrt_Rsqr_abs. Qed.
Lemma max_cont : cont (fun u => Rmax u (/ 2)).
Proof.
  intros u. apply (continuous_ext (fun u => (u + / 2 + Rabs (u - / 2)) / 2)).
  - intros v. unfold Rmax, Rabs. destruct (Rle_dec v (/ 2)), (Rcase_abs (v - / 2)); lra.
  - unfold Rdiv. refine (PsdIntegral.cmul (fun v => v + / 2 + Rabs (v - / 2)) (fun _ => / 2) _ (fun _ => continuous_const _ _) u). intros v.
    apply (continuous_plus (fun v => v + / 2) (fun v => Rabs (v - / 2))).
    + apply (ex_derive_continuous (fun v => v + / 2)). auto_derive. trivial.
    + apply (continuous_comp (fun v => v - / 2) Rabs); [|apply continuous_Rabs]. apply (ex_derive_continuous (fun v => v - / 2)). auto_derive. trivial.
Qed.
Lemma half_sq a : (Rabs a / 2) ^ 2 = a ^ 2 / 4.
Proof. unfold Rdiv. rewrite Rpow_mult_distr, pow2_abs. field. Qed.
Lemma max_pos u : / 2 <= Rmax u (/ 2). Proof. apply Rmax_r. Qed.
Lemma mixG_cont : cont2 mixG.
Proof.
  set (M := fun u => Rmax u (/ 2)). assert (CM : cont M) by apply max_cont. assert (PM : forall u, 0 < M u) by (intros u; unfold M; pose proof (max_pos u); lra).
  apply (cont2_ext (fun u a => (M u ^ (2 * p) * exp (- M u ^ 2)) * exp (- (/ (M u) ^ 2) * ((w * a) ^ 2 / 4)))).
  - intros u a. unfold mixG, mixand. fold (M u). rewrite Rmult_assoc, <- exp_plus. f_equal. f_equal. rewrite half_sq. specialize (PM u). field. lra.
  - assert (Cp : forall n, cont (fun u => M u ^ n)) by (intros n u; apply (continuous_comp M (fun v => v ^ n)); [apply CM|apply pow_cont]).
    assert (Ce : cont (fun u => exp (- M u ^ 2))).
    { intros u. apply (continuous_comp (fun u => M u ^ 2) (fun v => exp (- v))); [apply Cp|]. apply (ex_derive_continuous (fun v => exp (- v))). auto_derive. trivial. }
    apply (cont2_mult (fun u _ => M u ^ (2 * p) * exp (- M u ^ 2)) (fun u a => exp (- (/ (M u) ^ 2) * ((w * a) ^ 2 / 4)))).
    + apply (cont2_fst (fun u => M u ^ (2 * p) * exp (- M u ^ 2))). exact (PsdIntegral.cmul _ _ (Cp _) Ce).
    + apply (cont2_comp exp (fun u a => - (/ (M u) ^ 2) * ((w * a) ^ 2 / 4))).
      * intros x. apply (ex_derive_continuous exp). auto_derive. trivial.
      * apply (cont2_mult (fun u _ => - (/ (M u) ^ 2)) (fun _ a => (w * a) ^ 2 / 4)).
        -- apply (cont2_fst (fun u => - (/ (M u) ^ 2))). intros u. apply (continuous_comp M (fun v => - (/ v ^ 2))); [apply CM|].
           apply (ex_derive_continuous (fun v => - (/ v ^ 2))). auto_derive. specialize (PM u). nra.
        -- apply (cont2_snd (fun a => (w * a) ^ 2 / 4)). intros a. apply (ex_derive_continuous (fun a => (w * a) ^ 2 / 4)). auto_derive. trivial.
Qed.
Lemma mixG_gauss u x y : mixG u (x - y) = (Rmax u (/ 2) ^ (2 * p) * exp (- Rmax u (/ 2) ^ 2)) * gl (sqrt 2 * Rmax u (/ 2) / w) x y.
Proof.
  pose proof (max_pos u) as M. set (m := Rmax u (/ 2)) in *. unfold mixG. fold m. unfold mixand, gl. rewrite Rmult_assoc, <- exp_plus. f_equal. f_equal.
  assert (S2 : 0 < sqrt 2) by (apply sqrt_lt_R0; lra).
  replace (((x - y) / (sqrt 2 * m / w)) ^ 2) with ((w * (x - y)) ^ 2 / (sqrt 2 ^ 2 * m ^ 2)) by (field; repeat split; lra || assumption).
  rewrite pow2_sqrt by lra. rewrite half_sq. field. lra.
Qed.
Lemma moment_mixG x y : moment p (Rabs (w * (x - y)) / 2) 1 = RInt (fun u => mixG u (x - y)) (/ 2) 2.
Proof.
  unfold moment. rewrite NN_one. apply RInt_ext. intros u Hu. rewrite Rmin_left in Hu by lra. unfold mixG. now rewrite Rmax_left by lra.
Qed.
Definition mixl (x y : R) : R := RInt (fun u => mixG u (x - y)) (/ 2) 2.
Lemma mixl_cont : cont2 mixl.
Proof.
  apply (cont2_comp (fun a => RInt (fun u => mixG u a) (/ 2) 2) (fun x y => x - y)); [|apply cont2_diff].
  intros a. apply (inner_cont (fun a u => mixG u a)); [lra|]. apply cont2_swap, mixG_cont.
Qed.
Lemma matl_cont : cont2 matl.
Proof.
  apply (cont2_comp (fun a => matern_half p (Rabs (w * a))) (fun x y => x - y)); [|apply cont2_diff]. intros a.
  apply (continuous_comp (fun a => Rabs (w * a)) (matern_half p)).
  - apply (continuous_comp (fun a => w * a) Rabs); [|apply continuous_Rabs]. apply (ex_derive_continuous (fun a => w * a)). auto_derive. trivial.
  - assert (Q : 0 < sqrt_2nu p) by (rewrite s_eq; apply sqrt_lt_R0; pose proof (pos_INR p); lra). set (r := Rabs (w * a)).
    apply (continuous_ext (fun r => matern_half p (sqrt_2nu p * (r / sqrt_2nu p)))); [intros v; f_equal; field; lra|].
    apply (continuous_comp (fun r => r / sqrt_2nu p) (fun r => matern_half p (sqrt_2nu p * r))); [|apply half_cont].
    apply (ex_derive_continuous (fun r => r / sqrt_2nu p)). auto_derive. trivial.
Qed.

Lemma matern_unseen s : idom s -> ofun (terms_of s) (fun x => ofun (terms_of s) (matl x)) = 0 -> unseen s.
Proof.
  intros D Z. pose proof (terms_of_dom s D) as T. set (t := terms_of s) in *. destruct (matern_split p) as (c & Hc & P). specialize (P _ [tt] (fun _ => w)).
  assert (PD : psd_kernel (fun x y : R => matl x y + - c * mixl x y : car RF)).
  { apply (psd_ext (fun x y : R => matern_half p (sqrt (sqdist [tt] (fun _ => w) (fun _ => x) (fun _ => y))) - c * moment p (sqrt (sqdist [tt] (fun _ => w) (fun _ => x) (fun _ => y)) / 2) 1 : car RF)).
    - intros x y. cbn [car RF]. rewrite one_dist, moment_mixG. unfold matl, mixl. ring.
    - exact (psd_pull (fun a b : unit -> R => matern_half p (sqrt (sqdist [tt] (fun _ => w) a b)) - c * moment p (sqrt (sqdist [tt] (fun _ => w) a b) / 2) 1 : car RF) (fun (x : R) (_ : unit) => x) P). }
  assert (CD : cont2 (fun x y => matl x y + - c * mixl x y)) by (apply cont2_add; [apply matl_cont|apply cont2_mult; [apply cont2_const|apply mixl_cont]]).
  pose proof (ofun_nonneg (fun x y => matl x y + - c * mixl x y) t CD PD T) as N. cbv beta in N.
  assert (Q : 0 <= - c * ofun t (fun x => ofun t (mixl x))).
  { assert (EN : ofun t (fun x => ofun t (fun y => matl x y + - c * mixl x y)) = ofun t (fun x => ofun t (matl x)) + - c * ofun t (fun x => ofun t (mixl x))); [|rewrite EN, Z in N; lra].
    rewrite <- (ofun_scal t (- c) (fun x => ofun t (mixl x)) T (ofun_cont mixl t mixl_cont T)).
    rewrite <- ofun_add; [|exact T|apply ofun_cont; [apply matl_cont|exact T]|apply cont_scal, ofun_cont; [apply mixl_cont|exact T]].
    f_equal. extensionality x. rewrite <- (ofun_scal t (- c) (mixl x) T (cont2_right mixl x mixl_cont)).
    rewrite <- (ofun_add t (matl x) (fun y => - c * mixl x y) T (cont2_right matl x matl_cont) (cont_scal (- c) (mixl x) (cont2_right mixl x mixl_cont))). reflexivity. }
  rewrite (ofun_two mixl t t mixl_cont T T) in Q. change (0 <= - c * form (obs_cov mixl) t) in Q.
  set (G := fun u => obs_cov (fun x y => mixG u (x - y))).
  assert (EF : form (obs_cov mixl) t = form (fun o o' => RInt (fun u => G u o o') (/ 2) 2) t).
  { unfold form. apply sumR_ext. intros a Ha. apply sumR_ext. intros b Hb. f_equal.
    exact (proj1 (cov_int mixG (snd a) (snd b) (/ 2) 2 ltac:(lra) mixG_cont (T a Ha) (T b Hb))). }
  assert (CG : forall a b, In a t -> In b t -> cont (fun u => G u (snd a) (snd b))).
  { intros a b Ha Hb. exact (proj2 (cov_int mixG (snd a) (snd b) (/ 2) 2 ltac:(lra) mixG_cont (T a Ha) (T b Hb))). }
  assert (S2 : 0 < sqrt 2) by (apply sqrt_lt_R0; lra).
  assert (E : forall u, exists l q, l <> 0 /\ 0 < q /\ form (G u) t = q * form (obs_cov (gl l)) t).
  { intros u. pose proof (max_pos u) as M. exists (sqrt 2 * Rmax u (/ 2) / w), (Rmax u (/ 2) ^ (2 * p) * exp (- Rmax u (/ 2) ^ 2)).
    assert (Hl : sqrt 2 * Rmax u (/ 2) / w <> 0) by (unfold Rdiv; apply Rmult_integral_contrapositive_currified; [nra|now apply Rinv_neq_0_compat]).
    split; [exact Hl|]. split; [apply Rmult_lt_0_compat; [apply pow_lt; lra|apply exp_pos]|].
    rewrite <- form_scal. unfold form. apply sumR_ext. intros a Ha. apply sumR_ext. intros b Hb. f_equal.
    unfold G, obs_cov. set (q := Rmax u (/ 2) ^ (2 * p) * exp (- Rmax u (/ 2) ^ 2)). set (l := sqrt 2 * Rmax u (/ 2) / w) in *.
    assert (Kg := gl_cont l). rewrite <- (val_scal (snd a) q (fun x => obs_val (snd b) (gl l x)) (T a Ha) (val_cont (gl l) (snd b) Kg (T b Hb))). f_equal. extensionality x.
    rewrite <- (val_scal (snd b) q (gl l x) (T b Hb) (cont2_right (gl l) x Kg)). f_equal. extensionality y. apply mixG_gauss. }
  assert (E2 : forall u, form (G u) t = 0 <-> unseen s).
  { intros u. destruct (E u) as (l & q & Hl & Hq & ->). rewrite <- (gauss_unseen l Hl s D). fold t. rewrite (ofun_two (gl l) t t (gl_cont l) T T). change (q * form (obs_cov (gl l)) t = 0 <-> form (obs_cov (gl l)) t = 0).
    split; [intros H; apply Rmult_integral in H as [H|H]; [lra|exact H]|intros ->; ring]. }
  assert (E3 : forall u, 0 <= form (G u) t).
  { intros u. destruct (E u) as (l & q & Hl & Hq & ->). apply Rmult_le_pos; [lra|]. apply obs_form; [apply gl_cont|apply gl_psd|exact T]. }
  destruct (Req_dec (form (G 1) t) 0) as [H1|H1]; [now apply (E2 1)|exfalso].
  assert (N' : forall u, 0 < form (G u) t). { intros u. destruct (E3 u) as [H|H]; [exact H|]. exfalso. apply H1. apply (E2 1). now apply (E2 u). }
  pose proof (form_int G t (/ 2) 2 (fun a b Ha Hb => cont_ex _ _ _ (CG a b Ha Hb))) as I.
  assert (0 < form (fun o o' => RInt (fun u => G u o o') (/ 2) 2) t).
  { rewrite <- (is_RInt_unique _ _ _ _ I). apply RInt_gt_0; [lra|intros; apply N'|]. intros u _. apply cont_form. intros a b Ha Hb. apply CG; assumption. }
  rewrite EF in Q. nra.
Qed.
End Mat.

(** ** Priors on the line with a squared exponential or Matérn summand *)
Inductive line_strict : cov -> Prop :=
| LSExp e : eq_shape e = [] -> eq_len e [] <> 0 -> line_strict (CExp e)
| LSMat m p : mt_shape m = [] -> mt_nu m = HalfInt p -> 0 < mt_len m [] -> line_strict (CMat m)
| LSScaled s k : 0 < s -> line_strict k -> line_strict (CScaled s k)
| LSSum k ks : (forall k', In k' ks -> line_prior k') -> In k ks -> line_strict k -> line_strict (CSum ks).
Lemma strict_prior k : line_strict k -> line_prior k.
Proof.
  induction 1 as [e Hs Hl|m p Hs Hn Hl|s k Hs Hk IH|k ks Hks Hin Hk IH].
  - now constructor.
  - now apply (LPMat m p).
  - constructor; [lra|exact IH].
  - destruct ks as [|k0 ks]; [destruct Hin|]. now constructor.
Qed.
Lemma quad_scal k c t : cont2 k -> odom t -> ofun t (fun x => ofun t (fun y => c * k x y)) = c * ofun t (fun x => ofun t (k x)).
Proof.
  intros Hk T. rewrite <- (ofun_scal t c (fun x => ofun t (k x)) T (ofun_cont k t Hk T)). f_equal. extensionality x. exact (ofun_scal t c (k x) T (cont2_right k x Hk)).
Qed.
Lemma quad_sum {A} (k : A -> R -> R -> R) l t : (forall a, In a l -> cont2 (k a)) -> odom t ->
  ofun t (fun x => ofun t (fun y => sumR (fun a => k a x y) l)) = sumR (fun a => ofun t (fun x => ofun t (k a x))) l.
Proof.
  intros Hk T. rewrite <- (ofun_sum t (fun a x => ofun t (k a x)) l T (fun a Ha => ofun_cont (k a) t (Hk a Ha) T)). f_equal. extensionality x.
  exact (ofun_sum t (fun a => k a x) l T (fun a Ha => cont2_right (k a) x (Hk a Ha))).
Qed.
Lemma sumR_zero {A} (f : A -> R) l : (forall a, In a l -> 0 <= f a) -> sumR f l = 0 -> forall a, In a l -> f a = 0.
Proof.
  induction l as [|b l IH]; intros H E a Ha; [destruct Ha|]. rewrite sumR_cons in E. pose proof (H b (or_introl eq_refl)).
  assert (0 <= sumR f l) by (apply sumR_nonneg; intros; apply H; now right).
  destruct Ha as [<-|Ha]; [lra|]. apply IH; [intros; apply H; now right|lra|exact Ha].
Qed.
Lemma prior_unseen k s : line_strict k -> idom s -> ofun (terms_of s) (fun x => ofun (terms_of s) (line k x)) = 0 -> unseen s.
Proof.
  intros Hk D. pose proof (terms_of_dom s D) as T. induction Hk as [e Hs Hl|m p Hs Hn Hl|c k Hc Hk IH|k ks Hks Hin Hk IH]; intros Z.
  - apply (gauss_unseen (eq_len e []) Hl s D). rewrite <- Z. f_equal. extensionality x. f_equal. extensionality y. symmetry. now apply exp_line.
  - assert (Q : 0 < sqrt (2 * INR p + 1)) by (apply sqrt_lt_R0; pose proof (pos_INR p); lra).
    apply (matern_unseen p (sqrt (2 * INR p + 1) / mt_len m [])); [|exact D|].
    + unfold Rdiv. apply Rmult_integral_contrapositive_currified; [lra|apply Rinv_neq_0_compat; lra].
    + rewrite <- Z. f_equal. extensionality x. f_equal. extensionality y. unfold line. rewrite (eval_line m p) by assumption. unfold matl, matern_line. f_equal.
      rewrite Rabs_mult. unfold Rdiv. rewrite Rabs_mult, (Rabs_pos_eq (sqrt _)) by lra. rewrite (Rabs_pos_eq (/ _)) by (left; now apply Rinv_0_lt_compat). ring.
  - apply IH. change (ofun (terms_of s) (fun x => ofun (terms_of s) (fun y => c * line k x y)) = 0) in Z.
    rewrite (quad_scal (line k) c (terms_of s) (prior_cont k (strict_prior k Hk)) T) in Z. apply Rmult_integral in Z as [Z|Z]; [lra|exact Z].
  - apply IH. change (ofun (terms_of s) (fun x => ofun (terms_of s) (fun y => sumR (fun k => line k x y) ks)) = 0) in Z.
    rewrite (quad_sum line ks (terms_of s) (fun a Ha => prior_cont a (Hks a Ha)) T) in Z.
    refine (sumR_zero (fun a => ofun (terms_of s) (fun x => ofun (terms_of s) (line a x))) ks _ Z k Hin).
    intros a Ha. apply ofun_nonneg; [apply prior_cont|apply prior_line_psd|exact T]; now apply Hks.
Qed.

(** ** Infinitely differentiable functions of a real number *)
Definition smooth_line (f : R -> R) : Prop := forall n x, ex_derive_n f n x.
Lemma smooth_cont f : smooth_line f -> cont f.
Proof. intros S x. apply (ex_derive_continuous f). exact (S 1%nat x). Qed.
Lemma smooth_Derive f : smooth_line f -> smooth_line (Derive f).
Proof.
  intros Sf n x. specialize (Sf (S n) x). destruct n as [|n]; [exact Logic.I|]. cbn [ex_derive_n] in *.
  apply (ex_derive_ext (Derive_n f (S n))); [|exact Sf]. intros t. pose proof (Derive_n_comp f n 1 t) as E. rewrite Nat.add_1_r in E. now rewrite <- E.
Qed.
Lemma pd_line f : pd [] (fun a => f (a [])) = fun a => Derive f (a []).
Proof. extensionality x. unfold pd. apply Derive_ext. intros t. reflexivity. Qed.
Lemma iterD_line l : List.Forall (valid_index []) l -> forall f, smooth_line f -> exists g, smooth_line g /\ iterD l (fun a => f (a [])) = fun a => g (a []).
Proof.
  induction l as [|i l IH]; intros Hl f S; [now exists f|]. inversion Hl as [|? ? Hi Hl']; subst. apply valid_nil in Hi. subst i.
  change (iterD ([] :: l) (fun a => f (a []))) with (iterD l (pd [] (fun a => f (a [])))). rewrite pd_line. apply IH; [exact Hl'|now apply smooth_Derive].
Qed.
Lemma ci_line f : smooth_line f -> c_infty [] (fun a => f (a [])).
Proof.
  intros S. split.
  - intros l Hl v x. destruct (iterD_line l Hl f S) as (g & Sg & ->). cbn [all_indices map]. unfold total. cbn [fold_right]. rewrite (pd_line g). evar_last.
    + apply (is_derive_comp g (fun t => x [] + t * v [])); [apply Derive_correct; exact (Sg 1%nat _)|]. auto_derive; [trivial|reflexivity].
    + unfold scal. cbn. unfold mult. cbn. rewrite Rmult_0_l, !Rplus_0_r, Rmult_1_l. reflexivity.
  - intros w i j _ Hi Hj. apply valid_nil in Hi, Hj. now subst.
Qed.
Lemma unseen_line s f : unseen s -> idom s -> smooth_line f -> ofun (terms_of s) f = 0.
Proof. intros U D S. exact (unseen_zero s _ U D (ci_line f S)). Qed.
(** The two kinds of test functions. *)
Lemma unseen_values s phi x : unseen s -> (forall y, phi y = 0 \/ y = x) -> phi x = 1 ->
  sumR (fun p => fst p * match snd p with Value y => phi y | Integral _ _ => 0 end) s = 0.
Proof.
  intros U H0 H1. assert (C : c_infty [] (fun a => a [] - x)).
  { apply (ci_line (fun t => t - x)). intros n. assert (E : forall m t, ex_derive_n (fun t => t - x) (S (S m)) t).
    { intros m t. apply (ex_derive_ext (fun _ => if Nat.eqb m 0 then 1 else 0)); [|apply ex_derive_const]. intros u. symmetry. clear t. revert u. induction m as [|m IH]; intros u.
      - cbn. apply is_derive_unique. auto_derive; [trivial|ring].
      - cbn [Derive_n]. rewrite (Derive_ext _ (fun _ => if Nat.eqb m 0 then 1 else 0)) by exact IH. now rewrite Derive_const. }
    intros t. destruct n as [|[|n]]; [exact Logic.I| |apply E]. cbn. auto_derive. trivial. }
  assert (A : forall a b : array, agree [] a b -> phi (a []) = phi (b [])) by (intros a b A; now rewrite (A [] (Forall2_nil _))).
  refine (eq_trans _ (U (fun a => phi (a [])) A _ C)). rewrite pfun_dterms. apply sumR_ext. intros (c & [y|a b]) _; cbn [fst snd].
  - rewrite (pd_line (fun t => t - x)). rewrite (is_derive_unique (fun t => t - x) _ 1); [unfold pt; ring|]. auto_derive; [trivial|ring].
  - unfold pt. cbv beta. destruct (H0 b) as [->| ->], (H0 a) as [->| ->]; ring.
Qed.
Lemma unseen_cells s phi : unseen s -> sumR (fun p => fst p * match snd p with Value y => 0 | Integral a b => phi b - phi a end) s = 0.
Proof.
  intros U. assert (A : forall a b : array, agree [] a b -> phi (a []) = phi (b [])) by (intros a b A; now rewrite (A [] (Forall2_nil _))).
  refine (eq_trans _ (U (fun a => phi (a [])) A _ (ci_const [] 1))). rewrite pfun_dterms. apply sumR_ext. intros (c & [y|a b]) _; cbn [fst snd].
  - rewrite (pd_line (fun _ => 1)). rewrite Derive_const. ring.
  - unfold pt. ring.
Qed.
