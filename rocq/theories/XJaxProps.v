(** C70: integrated covariance functions under automatic differentiation. *)
From Coq Require Import List Reals Bool Arith Lra Lia FunctionalExtensionality.
From Coquelicot Require Import Coquelicot.
From Verif Require Import Base NdArray PolyModel PolySpec PolyProofs PolyClassModel PolyCalc FunExprModel DiffopModel LfoModel LfoSmooth KernelModel KernelSpec
  MaternPoly MaternProofs IntegralModel IntegralSpec IntegralProofs IntegralProps AdModel AdSpec AdProofs AdKernels AdProps AdCovProofs XJaxModel.
Import ListNotations.
Open Scope R_scope.

(** * The antiderivatives *)
Lemma anti_reg e p r : reg e r -> reg e (anti_prog p r).
Proof. intros H. cbn [anti_prog reg]. repeat split; auto. apply horner_reg. cbn. auto. Qed.
Lemma anti_val e p r : pval e (anti_prog p r) = anti_eval p (pval e r).
Proof. cbn [anti_prog pval]. rewrite horner_val. reflexivity. Qed.
Lemma anti2_reg e p r : reg e r -> reg e (anti2_prog p r).
Proof. intros H. cbn [anti2_prog reg]. repeat split; auto. apply horner_reg. cbn. auto. Qed.
Lemma anti2_val e p r : pval e (anti2_prog p r) = anti2_eval p (pval e r).
Proof. cbn [anti2_prog pval]. rewrite horner_val. reflexivity. Qed.
(** All derivatives, everywhere. *)
Theorem C70_antiderivatives : forall p ds (e : points),
  (run e (iterate (anti_prog p (PVar false [])) ds) = Fin (derivs ds (fun e => anti_eval p (fst e [])) e) /\ differentiable ds (fun e => anti_eval p (fst e [])) e) /\
  (run e (iterate (anti2_prog p (PVar false [])) ds) = Fin (derivs ds (fun e => anti2_eval p (fst e [])) e) /\ differentiable ds (fun e => anti2_eval p (fst e [])) e).
Proof.
  intros p ds e. split.
  - replace (fun e0 : points => anti_eval p (fst e0 [])) with (fun e0 : points => pval e0 (anti_prog p (PVar false []))) by (extensionality e0; apply anti_val). apply regular_ok, anti_reg. exact I.
  - replace (fun e0 : points => anti2_eval p (fst e0 [])) with (fun e0 : points => pval e0 (anti2_prog p (PVar false []))) by (extensionality e0; apply anti2_val). apply regular_ok, anti2_reg. exact I.
Qed.
Print Assumptions C70_antiderivatives.

(** * The integrals *)
(** Sums and multiples of half-integer Matérn covariance functions of one number. *)
Inductive matern_sum : cov -> Prop :=
| MMat m p : mt_shape m = [] -> mt_nu m = HalfInt p -> 0 < mt_len m [] -> matern_sum (CMat m)
| MScaled s k : matern_sum k -> matern_sum (CScaled s k)
| MSum k ks : (forall k', In k' (k :: ks) -> matern_sum k') -> matern_sum (CSum (k :: ks)).
Lemma sum_integrable arg a b k : matern_sum k -> integrable arg a b k.
Proof. induction 1; [eapply IMat; eassumption|now apply IScaled|now apply ISum]. Qed.

Section Main.
Variables (a b : R).
(** On the same side of both ends (or at the same end). *)
Definition side (c t y : R) : Prop := (t < c -> y < c) /\ (t = c -> y = c) /\ (c < t -> c < y).
Lemma side_sign c t y : side c t y -> sign (c - t) = sign (c - y) /\ neg_if_less c t = neg_if_less c y.
Proof.
  intros (A & B & C). unfold sign, neg_if_less. destruct (Reqb_spec (c - t) 0), (Reqb_spec (c - y) 0), (Rltb_spec (c - t) 0), (Rltb_spec (c - y) 0), (Rltb_spec c t), (Rltb_spec c y); split; try reflexivity; exfalso;
  (destruct (Rtotal_order t c) as [H|[H|H]]; [specialize (A H)|specialize (B H)|specialize (C H)]; lra).
Qed.
Lemma sign_abs r : sign r * r = Rabs r.
Proof. unfold sign. destruct (Reqb_spec r 0) as [->|N]; [rewrite Rabs_R0; ring|]. destruct (Rltb_spec r 0); [rewrite Rabs_left by lra|rewrite Rabs_pos_eq by lra]; ring. Qed.
Definition good (f : R -> R -> R) (x : xcov) : Prop := forall t, exists p, x_prog x t = Ok p /\ (forall e, reg e p) /\
  (forall e : points, side a t (fst e []) -> side b t (fst e []) -> pval e p = x_eval x (fst e [])) /\
  (forall (e : points) (v : array), fst e [] = t -> is_derive (fun s => pval (move e false s v) p) 0 (v [] * ((if Reqb t a then 0 else f a t) - (if Reqb t b then 0 else f b t)))) /\
  is_derive (x_eval x) t (f a t - f b t).
Lemma part_derive p l c t (e : points) (v : array) : 0 < l -> fst e [] = t ->
  is_derive (fun s => l * (neg_if_less c t * anti_eval p (sign (c - t) * (c - (fst e [] + s * v [])) / l))) 0 (v [] * (- if Reqb t c then 0 else matern_line p l c t)).
Proof.
  intros Hl Et. set (g := fun s : R => sign (c - t) * (c - (fst e [] + s * v [])) / l).
  assert (D : is_derive g 0 (- sign (c - t) * v [] / l)) by (unfold g; auto_derive; [lra|field; lra]).
  assert (G0 : g 0 = Rabs (c - t) / l) by (unfold g; rewrite Et, Rmult_0_l, Rplus_0_r, sign_abs; reflexivity).
  assert (Dc := d_comp (anti_eval p) g 0 _ _ (anti_derive p (g 0)) D).
  assert (Df : is_derive (fun s => l * (neg_if_less c t * anti_eval p (g s))) 0 (l * (neg_if_less c t * (- sign (c - t) * v [] / l * matern_half p (sqrt_2nu p * g 0))))).
  { apply (is_derive_scal (fun s => neg_if_less c t * anti_eval p (g s))). apply (is_derive_scal (fun s => anti_eval p (g s))). exact Dc. }
  refine (dval _ _ _ _ Df _). rewrite G0, s_eq. fold (matern_line p l c t). unfold neg_if_less, sign. destruct (Reqb_spec t c) as [->|N].
  - rewrite Rminus_diag_eq by reflexivity. destruct (Reqb_spec 0 0); [|lra]. unfold Rdiv. ring.
  - destruct (Reqb_spec (c - t) 0); [lra|]. destruct (Rltb_spec c t), (Rltb_spec (c - t) 0); try (exfalso; lra); field; lra.
Qed.
Lemma mat_good p l r : 0 < l -> good (matern_line p l) (XMat l p a b r).
Proof.
  intros Hl t. eexists. split; [reflexivity|]. split; [|split; [|split]].
  - intros e. assert (G : forall c, reg e (anti_prog p (PDiv (abs_prog c t) (PCst l)))) by (intros c; apply anti_reg; cbn [reg abs_prog pval]; repeat split; lra).
    exact (conj I (conj (conj I (G b)) (conj I (G a)))).
  - intros e Sa Sb. destruct (side_sign _ _ _ Sa) as [A1 A2], (side_sign _ _ _ Sb) as [B1 B2]. unfold radial_prog, abs_prog. cbn [pval x_eval]. rewrite !anti_val. cbn [pval]. rewrite A1, A2, B1, B2, !sign_abs. reflexivity.
  - intros e v Et. apply is_derive_ext with (f := fun s => l * (neg_if_less b t * anti_eval p (sign (b - t) * (b - (fst e [] + s * v [])) / l)) - l * (neg_if_less a t * anti_eval p (sign (a - t) * (a - (fst e [] + s * v [])) / l))).
    { intros s. unfold radial_prog, abs_prog. cbn [pval]. rewrite !anti_val. cbn [pval move fst]. match goal with |- @eq _ ?u ?w => change (@eq R u w) end. ring. }
    refine (dval _ _ _ _ (d_minus _ _ _ _ _ (part_derive p l b t e v Hl Et) (part_derive p l a t e v Hl Et)) _). ring.
  - apply is_derive_ext with (f := fun x => H1 l (anti_eval p) a x - H1 l (anti_eval p) b x).
    { intros s. symmetry. apply (single_H1 l (anti_eval p)), anti_0. }
    rewrite !line_radial, !(Rabs_minus_sym t). rewrite !(Rabs_minus_sym _ t).
    apply (d_minus _ _ _ _ _ (H1_derive l (fun r => matern_half p (sqrt_2nu p * r)) (anti_eval p) Hl (anti_derive p) (anti_0 p) a t) (H1_derive l (fun r => matern_half p (sqrt_2nu p * r)) (anti_eval p) Hl (anti_derive p) (anti_0 p) b t)).
Qed.
Lemma all_good arg k : (arg < 2)%nat -> matern_sum k -> exists x, lebesgue_cov k a b arg = Ok x /\ x_reverse x = (arg =? 0)%nat /\ good (line k) x.
Proof.
  intros Ha Hk. refine (lift arg a b matern_sum good Ha _ _ _ _ _ _ _ k (sum_integrable arg a b k Hk) Hk).
  - intros f g x E H t. destruct (H t) as (p & A & B & C & D & F). exists p. split; [exact A|]. split; [exact B|]. split; [exact C|]. split; [intros e v Et; rewrite <- !E; now apply D|now rewrite <- !E].
  - intros s f x H t. destruct (H t) as (p & A & B & C & D & F). cbn [x_prog]. rewrite A. eexists. split; [reflexivity|]. split; [intros e; split; [exact I|apply B]|]. split; [|split].
    + intros e Sa Sb. cbn [pval x_eval]. now rewrite C.
    + intros e v Et. refine (dval _ _ _ _ (is_derive_scal _ _ s _ (D e v Et)) _). destruct (Reqb t a), (Reqb t b); ring.
    + refine (dval _ _ _ _ (is_derive_scal _ _ s _ F) _). ring.
  - intros f g x y H H' t. destruct (H t) as (p & A & B & C & D & F), (H' t) as (p' & A' & B' & C' & D' & F'). cbn [x_prog]. rewrite A, A'. eexists. split; [reflexivity|]. split; [intros e; split; [split; [exact I|apply B]|apply B']|]. split; [|split].
    + intros e Sa Sb. cbn [pval x_eval]. rewrite C, C' by assumption. ring.
    + intros e v Et. refine (dval _ _ _ _ (d_plus _ _ _ _ _ (d_plus _ _ _ _ _ (d_const 0 0) (D e v Et)) (D' e v Et)) _). destruct (Reqb t a), (Reqb t b); ring.
    + refine (dval _ _ _ _ (d_plus _ _ _ _ _ F F') _). ring.
  - intros m p _ _ Hl. now apply mat_good.
  - intros k' HM _ HN. destruct HM as [m p _ Hn _| |]; cbn in HN; try contradiction. now rewrite Hn in HN.
  - intros s k' HM. inversion HM; assumption.
  - intros ks k' HM HI. inversion HM; subst. auto.
Qed.
End Main.

(** Away from the ends of the interval: all derivatives are those of the integral, and exist. *)
Theorem C70_derivatives : forall k a b arg, (arg < 2)%nat -> matern_sum k -> exists x, lebesgue_cov k a b arg = Ok x /\ x_reverse x = (arg =? 0)%nat /\
  (forall t, integral_in arg (line k) a b t (x_eval x t)) /\
  forall (e : points) ds, fst e [] <> a -> fst e [] <> b -> exists p, x_prog x (fst e []) = Ok p /\
    run e (iterate p ds) = Fin (derivs ds (fun e => x_eval x (fst e [])) e) /\ differentiable ds (fun e => x_eval x (fst e [])) e.
Proof.
  intros k a b arg Ha Hk. destruct (all_good a b arg k Ha Hk) as (x & E & Rv & G). exists x. split; [exact E|]. split; [exact Rv|]. split.
  { destruct (C39_single k a b arg Ha (sum_integrable arg a b k Hk)) as (x' & E' & _ & H). rewrite E in E'. injection E' as <-. exact H. }
  intros e ds Na Nb. destruct (G (fst e [])) as (p & Ep & Rg & V & _ & _). exists p. split; [exact Ep|].
  set (X := fun e' : points => side a (fst e []) (fst e' []) /\ side b (fst e []) (fst e' [])).
  assert (Sd : forall c t, t <> c -> forall y (w : R), side c t y -> locally 0 (fun s => side c t (y + s * w))).
  { intros c t N y w (A & B & C). assert (Cn : continuous (fun s : R => y + s * w) 0) by (apply (ex_derive_continuous (fun s : R => y + s * w)); eexists; auto_derive; [exact I|reflexivity]).
    destruct (Rtotal_order t c) as [H|[H|H]]; [|contradiction|].
    - generalize (cont_lt (fun s => y + s * w) 0 c Cn ltac:(cbv beta; rewrite Rmult_0_l, Rplus_0_r; auto)). apply filter_imp. intros s Hs. repeat split; intros; auto; exfalso; lra.
    - generalize (cont_gt (fun s => y + s * w) 0 c Cn ltac:(cbv beta; rewrite Rmult_0_l, Rplus_0_r; auto)). apply filter_imp. intros s Hs. repeat split; intros; auto; exfalso; lra. }
  assert (O : forall e' bb v, X e' -> locally 0 (fun s => X (move e' bb s v))).
  { intros e' bb v [S1 S2]. unfold X. destruct bb; cbn [move fst]; [apply filter_forall; intros _; now split|]. apply filter_and; now apply Sd. }
  assert (Xe : X e) by (repeat split; auto).
  destruct (regular_ok p ds e (Rg e)) as [Rn D]. split.
  - rewrite Rn. f_equal. apply (derivs_ext X O); [intros e' [S1 S2]; now apply V|exact Xe].
  - intros ds1 bb v ds2 Eds. specialize (D ds1 bb v ds2 Eds). revert D. apply ex_derive_ext_loc. generalize (O e bb v Xe). apply filter_imp. intros s Hs. apply (derivs_ext X O); [intros e' [S1 S2]; now apply V|exact Hs].
Qed.
Print Assumptions C70_derivatives.
(** Values everywhere; the derivative that is returned, everywhere, and the true one. *)
Theorem C70_values : forall k a b arg x (e : points), (arg < 2)%nat -> matern_sum k -> lebesgue_cov k a b arg = Ok x ->
  exists p, x_prog x (fst e []) = Ok p /\ run e p = Fin (x_eval x (fst e [])).
Proof.
  intros k a b arg x e Ha Hk E. destruct (all_good a b arg k Ha Hk) as (x' & E' & _ & G). rewrite E in E'. injection E' as <-. destruct (G (fst e [])) as (p & Ep & Rg & V & _ & _).
  exists p. split; [exact Ep|]. rewrite run_reg by apply Rg. f_equal. apply V; repeat split; auto.
Qed.
Print Assumptions C70_values.
Theorem C70_first_derivative : forall k a b arg x (e : points) (v : array), (arg < 2)%nat -> matern_sum k -> lebesgue_cov k a b arg = Ok x ->
  (exists p, x_prog x (fst e []) = Ok p /\
   run e (iterate p [(false, v)]) = Fin (v [] * ((if Req_EM_T (fst e []) a then 0 else line k a (fst e [])) - (if Req_EM_T (fst e []) b then 0 else line k b (fst e []))))) /\
  is_derive (x_eval x) (fst e []) (line k a (fst e []) - line k b (fst e [])).
Proof.
  intros k a b arg x e v Ha Hk E. destruct (all_good a b arg k Ha Hk) as (x' & E' & _ & G). rewrite E in E'. injection E' as <-. destruct (G (fst e [])) as (p & Ep & Rg & _ & D & T). split; [|exact T].
  exists p. split; [exact Ep|]. rewrite (proj1 (regular_ok p [(false, v)] e (Rg e))). f_equal. cbn [derivs fold_left]. unfold along. cbn [fst snd]. apply is_derive_unique.
  refine (dval _ _ _ _ (D e v eq_refl) _). destruct (Reqb_spec (fst e []) a), (Reqb_spec (fst e []) b), (Req_EM_T (fst e []) a), (Req_EM_T (fst e []) b); try contradiction; reflexivity.
Qed.
Print Assumptions C70_first_derivative.
(** Finding: at the ends of the interval the derivative exists and the one returned is off by one (the
    value of the covariance function on the diagonal). *)
Lemma half_0 p : matern_half p 0 = 1.
Proof.
  unfold matern_half. rewrite Ropp_0, exp_0, Rmult_0_r.
  assert (S : forall g n, (forall i, (i < n)%nat -> g i = 0) -> sum_f_R0 g n = g n).
  { intros g [|n] H; [reflexivity|]. rewrite tech5, (sum_eq_R0 g n); [ring|]. intros i Hi. apply H. lia. }
  rewrite S.
  - rewrite Nat.sub_diag. replace (p + p)%nat with (2 * p)%nat by lia. cbn [fact pow INR]. pose proof (INR_fact_neq_0 p). pose proof (INR_fact_neq_0 (2 * p)). field. auto.
  - intros i Hi. rewrite pow_i by lia. ring.
Qed.
Lemma line_diag m p t : mt_shape m = [] -> mt_nu m = HalfInt p -> 0 < mt_len m [] -> line (CMat m) t t = 1.
Proof. intros A B C. unfold line. rewrite (eval_line m p t t A B C). unfold matern_line. rewrite Rminus_diag_eq, Rabs_R0 by reflexivity. unfold Rdiv. rewrite Rmult_0_l, Rmult_0_r. apply half_0. Qed.
Theorem C70_ends_refuted : forall m p a b arg, (arg < 2)%nat -> mt_shape m = [] -> mt_nu m = HalfInt p -> 0 < mt_len m [] -> a <> b ->
  exists x, lebesgue_cov (CMat m) a b arg = Ok x /\ forall (e : points), (fst e [] = a \/ fst e [] = b) ->
  exists q true wrong, x_prog x (fst e []) = Ok q /\ is_derive (x_eval x) (fst e []) true /\ run e (iterate q [(false, fun _ => 1)]) = Fin wrong /\
    (fst e [] = a -> wrong = true - 1) /\ (fst e [] = b -> wrong = true + 1).
Proof.
  intros m p a b arg Ha A B C N. assert (Hk : matern_sum (CMat m)) by (eapply MMat; eassumption). destruct (all_good a b arg _ Ha Hk) as (x & E & _). exists x. split; [exact E|].
  intros e _. destruct (C70_first_derivative _ a b arg x e (fun _ => 1) Ha Hk E) as ((q & Eq & Rn) & D). do 3 eexists. split; [exact Eq|]. split; [exact D|]. split; [exact Rn|].
  pose proof (line_diag m p (fst e []) A B C) as L. split; intros Ee.
  - destruct (Req_EM_T (fst e []) a); [|contradiction]. destruct (Req_EM_T (fst e []) b); [congruence|]. rewrite <- Ee, L. ring.
  - destruct (Req_EM_T (fst e []) b); [|contradiction]. destruct (Req_EM_T (fst e []) a); [congruence|]. rewrite <- Ee, L. ring.
Qed.
Print Assumptions C70_ends_refuted.
(** Integrals by quadrature have no jax version; otherwise there is one. *)
Fixpoint has_quad (x : xcov) : bool := match x with XMat _ _ _ _ _ => false | XQuad _ _ _ _ => true | XScaled _ x => has_quad x | XSum x y => has_quad x || has_quad y end.
Theorem C70_errors : forall x t, if has_quad x then x_prog x t = Err NotImplementedError else exists p, x_prog x t = Ok p.
Proof.
  intros x t. induction x as [l p a b r|k a b r|s x IH|x IHx y IHy]; cbn [has_quad x_prog]; [eexists; reflexivity|reflexivity| |].
  - destruct (has_quad x); [now rewrite IH|]. destruct IH as [p ->]. eexists. reflexivity.
  - destruct (has_quad x); [now rewrite IHx|]. destruct IHx as [p ->]. cbn [orb bind]. destruct (has_quad y); [now rewrite IHy|]. destruct IHy as [q ->]. eexists. reflexivity.
Qed.
Theorem C70_quadrature : forall k a b arg t, (arg < 2)%nat -> no_closed_form k -> c_shape k = [] ->
  exists x, lebesgue_cov k a b arg = Ok x /\ x_prog x t = Err NotImplementedError.
Proof. intros k a b arg t Ha Hn Hs. rewrite leb_other by assumption. eexists. split; reflexivity. Qed.

(** A concrete case: twice the exponential covariance function over [0, 1], at 1/2 and at 1. *)
Definition half_kernel : cov := CScaled 2 (CMat (Matern [] (fun _ => 1) (HalfInt 0))).
Example C70_example : matern_sum half_kernel /\ exists x, lebesgue_cov half_kernel 0 1 1 = Ok x /\
  (exists p, x_prog x (1/2) = Ok p /\ run ((fun _ => 1/2), (fun _ => 0)) (iterate p [(false, fun _ => 1)]) = Fin 0) /\
  (exists p, x_prog x 1 = Ok p /\ run ((fun _ => 1), (fun _ => 0)) (iterate p [(false, fun _ => 1)]) = Fin (2 * exp (- 1))).
Proof.
  assert (Hk : matern_sum half_kernel) by (apply MScaled; eapply MMat; [reflexivity|reflexivity|cbn; lra]). split; [exact Hk|]. destruct (all_good 0 1 1 _ (Nat.lt_succ_diag_r 1) Hk) as (x & E & _). exists x. split; [exact E|].
  assert (L : forall u t, line half_kernel u t = 2 * exp (- Rabs (u - t))).
  { intros u t. change (line half_kernel u t) with (2 * line (CMat (Matern [] (fun _ => 1) (HalfInt 0))) u t). unfold line. rewrite (eval_line _ 0) by (reflexivity || (cbn; lra)). unfold matern_line, matern_half. cbn. replace (2 * 0 + 1) with 1 by ring. rewrite sqrt_1. rewrite Rdiv_1, Rmult_1_l. field. }
  split.
  - destruct (C70_first_derivative _ 0 1 1 x ((fun _ => 1/2), (fun _ => 0)) (fun _ => 1) (Nat.lt_succ_diag_r 1) Hk E) as ((p & Ep & Rn) & _). exists p. split; [exact Ep|]. etransitivity; [exact Rn|]. cbn [fst]. f_equal. destruct (Req_EM_T (1/2) 0); [lra|]. destruct (Req_EM_T (1/2) 1); [lra|]. rewrite !L.
    rewrite Rabs_left, Rabs_pos_eq by lra. replace (- - (0 - 1/2)) with (- (1 - 1/2)) by field. ring.
  - destruct (C70_first_derivative _ 0 1 1 x ((fun _ => 1), (fun _ => 0)) (fun _ => 1) (Nat.lt_succ_diag_r 1) Hk E) as ((p & Ep & Rn) & _). exists p. split; [exact Ep|]. etransitivity; [exact Rn|]. cbn [fst]. f_equal. destruct (Req_EM_T 1 0); [lra|]. destruct (Req_EM_T 1 1); [|lra]. rewrite L.
    rewrite Rabs_left by lra. replace (- - (0 - 1)) with (- 1) by ring. ring.
Qed.
