(** Property theorem C39. *)
From Coq Require Import List Reals Lra Lia Bool Arith ZArith.
From Coquelicot Require Import Coquelicot.
From Verif Require Import Base NdArray PolyModel PolyClassModel FunExprModel LfoModel LfoSpec KernelModel KernelSpec
  MaternPoly MaternProps MaternProofs MaternUni IntegralModel IntegralSpec IntegralProofs.
Import ListNotations.
Open Scope R_scope.

Lemma eval_line m p x y : mt_shape m = [] -> mt_nu m = HalfInt p -> 0 < mt_len m [] ->
  ceval (CMat m) (pt x) (pt y) = matern_line p (mt_len m []) x y.
Proof.
  intros Hs Hn Hl. rewrite (ev_mat_spec m p Hn). unfold matern_fun, matern_line. f_equal. unfold wdist. rewrite Hs. cbn [all_indices map].
  unfold total. cbn [fold_right]. rewrite Rplus_0_r, <- Rsqr_pow2, sqrt_Rsqr_abs. unfold pt, Rdiv. rewrite !Rabs_mult, (Rabs_pos_eq (sqrt _)) by apply sqrt_pos.
  rewrite (Rabs_pos_eq (/ mt_len m [])) by (left; now apply Rinv_0_lt_compat). ring.
Qed.

(** The two radial antiderivatives are the integrals from zero. *)
Theorem C39_antiderivatives : forall p r,
  is_RInt (fun s => matern_half p (sqrt_2nu p * s)) 0 r (anti_eval p r) /\ is_RInt (anti_eval p) 0 r (anti2_eval p r).
Proof.
  intros p r.
  assert (Z : anti2_eval p 0 = 0).
  { unfold anti2_eval, anti2_C2. rewrite !Rmult_0_r, exp_0, coeff_eval by apply anti2_valid. ring. }
  assert (CA : forall x, continuous (anti_eval p) x) by (intros x; apply (ex_derive_continuous (anti_eval p)); eexists; apply anti_derive).
  assert (CK : forall x, continuous (fun s => matern_half p (sqrt_2nu p * s)) x).
  { intros x. apply (ex_derive_continuous (fun s => matern_half p (sqrt_2nu p * s))). apply (ex_derive_comp (matern_half p) (fun s => sqrt_2nu p * s)).
    - rewrite matern_half_E. eexists. apply E_derive.
    - auto_derive. exact I. }
  split.
  - replace (anti_eval p r) with (minus (anti_eval p r) (anti_eval p 0)) by (rewrite anti_0; unfold minus, plus, opp; cbn; ring).
    apply (is_RInt_derive (anti_eval p)); intros x _; [apply anti_derive|apply CK].
  - replace (anti2_eval p r) with (minus (anti2_eval p r) (anti2_eval p 0)) by (rewrite Z; unfold minus, plus, opp; cbn; ring).
    apply (is_RInt_derive (anti2_eval p)); intros x _; [apply anti2_derive|apply CA].
Qed.
Print Assumptions C39_antiderivatives.

(** Integrating a half-integer Matérn kernel over one argument. *)
Theorem C39_matern_single : forall m p a b arg, mt_shape m = [] -> mt_nu m = HalfInt p -> 0 < mt_len m [] -> (arg < 2)%nat ->
  exists x, lebesgue_cov (CMat m) a b arg = Ok x /\ x_reverse x = (arg =? 0)%nat /\
  forall t, integral_in arg (matern_line p (mt_len m [])) a b t (x_eval x t).
Proof.
  intros m p a b arg Hs Hn Hl Ha. cbn [lebesgue_cov]. destruct (Nat.ltb_spec 1 arg); [lia|]. rewrite Hs, Hn. cbn.
  eexists. split; [reflexivity|]. split; [reflexivity|]. intros t. cbn [x_eval]. now apply mat_single.
Qed.
Print Assumptions C39_matern_single.
(** Over both arguments, in either order of application. *)
Theorem C39_matern_double : forall m p a b c d arg, mt_shape m = [] -> mt_nu m = HalfInt p -> 0 < mt_len m [] -> (arg < 2)%nat ->
  exists x, lebesgue_cov (CMat m) a b arg = Ok x /\
  match arg with
  | O => integral_both (matern_line p (mt_len m [])) a b c d (lebesgue_x x c d)
  | _ => integral_both (matern_line p (mt_len m [])) c d a b (lebesgue_x x c d)
  end.
Proof.
  intros m p a b c d arg Hs Hn Hl Ha. cbn [lebesgue_cov]. destruct (Nat.ltb_spec 1 arg); [lia|]. rewrite Hs, Hn. cbn.
  eexists. split; [reflexivity|]. cbn [lebesgue_x]. destruct arg; [|now apply mat_both]. rewrite double_sym. now apply mat_both.
Qed.
Print Assumptions C39_matern_double.

(** The kernel is evaluated as the Matérn kernel of the specification. *)
Theorem C39_matern_kernel : forall m p x y, mt_shape m = [] -> mt_nu m = HalfInt p -> 0 < mt_len m [] ->
  ceval (CMat m) (pt x) (pt y) = matern_line p (mt_len m []) x y.
Proof. exact eval_line. Qed.
Print Assumptions C39_matern_kernel.

(** ** Scaled and summed kernels, kernels without closed form *)
Definition line (k : cov) (x y : R) : R := ceval k (pt x) (pt y).
Definition no_closed_form (k : cov) : Prop :=
  match k with
  | CNotImpl | CScaled _ _ | CSum _ => False
  | CMat m => match mt_nu m with HalfInt _ => False | OtherNu _ _ => True end
  | _ => True
  end.
Inductive integrable (arg : nat) (a b : R) : cov -> Prop :=
| IMat m p : mt_shape m = [] -> mt_nu m = HalfInt p -> 0 < mt_len m [] -> integrable arg a b (CMat m)
| IOther k : no_closed_form k -> c_shape k = [] ->
    (forall t, ex_RInt (fun u => line k t u) a b) -> (arg = 0%nat -> forall x y, line k x y = line k y x) -> integrable arg a b k
| IScaled s k : integrable arg a b k -> integrable arg a b (CScaled s k)
| ISum k ks : (forall k', In k' (k :: ks) -> integrable arg a b k') -> integrable arg a b (CSum (k :: ks)).

Lemma integrable_shape arg a b k : integrable arg a b k -> c_shape k = [].
Proof. induction 1 as [m p H|k _ H| |k ks H IH]; try assumption. apply (IH k). now left. Qed.
Definition go (a b : R) (arg : nat) : list cov -> xcov -> result xcov :=
  fix go (ks : list cov) (acc : xcov) : result xcov :=
    match ks with
    | [] => Ok acc
    | k' :: ks' => bind (lebesgue_cov k' a b arg) (fun x => bind (x_add acc x) (fun s => go ks' s))
    end.
Lemma leb_other arg a b k : (arg < 2)%nat -> no_closed_form k -> c_shape k = [] -> lebesgue_cov k a b arg = Ok (XQuad k a b (arg =? 0)%nat).
Proof.
  intros Ha Hn Hs. destruct k; cbn [lebesgue_cov no_closed_form c_shape] in *; try contradiction; (destruct (Nat.ltb_spec 1 arg); [lia|]);
    rewrite ?Hs; try reflexivity. destruct (mt_nu m); [contradiction|reflexivity].
Qed.
Lemma leb_sum arg a b k ks : (arg < 2)%nat -> c_shape k = [] ->
  lebesgue_cov (CSum (k :: ks)) a b arg = bind (lebesgue_cov k a b arg) (go a b arg ks).
Proof. intros Ha Hs. cbn [lebesgue_cov]. destruct (Nat.ltb_spec 1 arg); [lia|]. rewrite Hs. reflexivity. Qed.
Lemma leb_scaled arg a b s k : (arg < 2)%nat -> c_shape k = [] ->
  lebesgue_cov (CScaled s k) a b arg = bind (lebesgue_cov k a b arg) (fun x => Ok (XScaled s x)).
Proof. intros Ha Hs. cbn [lebesgue_cov]. destruct (Nat.ltb_spec 1 arg); [lia|]. rewrite Hs. reflexivity. Qed.

(** A property of kernels and cross-covariances that survives scaling and addition holds
    for what [lebesgue_cov] returns. *)
Section Lift.
Variables (arg : nat) (a b : R) (I : cov -> Prop) (Q : (R -> R -> R) -> xcov -> Prop).
Hypothesis Ha : (arg < 2)%nat.
Hypothesis Q_ext : forall f g x, (forall u v, f u v = g u v) -> Q f x -> Q g x.
Hypothesis Q_scale : forall s f x, Q f x -> Q (fun u v => s * f u v) (XScaled s x).
Hypothesis Q_add : forall f g x y, Q f x -> Q g y -> Q (fun u v => f u v + g u v) (XSum x y).
Hypothesis Q_mat : forall m p, mt_shape m = [] -> mt_nu m = HalfInt p -> 0 < mt_len m [] -> Q (matern_line p (mt_len m [])) (XMat (mt_len m []) p a b (arg =? 0)%nat).
Hypothesis Q_other : forall k, I k -> integrable arg a b k -> no_closed_form k -> c_shape k = [] -> (forall t, ex_RInt (fun u => line k t u) a b) ->
  (arg = 0%nat -> forall x y, line k x y = line k y x) -> Q (line k) (XQuad k a b (arg =? 0)%nat).
Hypothesis I_scaled : forall s k, I (CScaled s k) -> I k.
Hypothesis I_sum : forall ks k, I (CSum ks) -> In k ks -> I k.
Lemma lift k : integrable arg a b k -> I k -> exists x, lebesgue_cov k a b arg = Ok x /\ x_reverse x = (arg =? 0)%nat /\ Q (line k) x.
Proof.
  induction 1 as [m p Hs Hn Hl|k Hn Hs He Hy|s k Hk IH|k ks Hks IH]; intros HI.
  - cbn [lebesgue_cov]. destruct (Nat.ltb_spec 1 arg); [lia|]. rewrite Hs, Hn. cbn. eexists. split; [reflexivity|]. split; [reflexivity|].
    apply Q_ext with (2 := Q_mat m p Hs Hn Hl). intros u v. symmetry. now apply eval_line.
  - rewrite leb_other by assumption. eexists. split; [reflexivity|]. split; [reflexivity|]. apply Q_other; try assumption. now apply IOther.
  - destruct (IH (I_scaled _ _ HI)) as (x & E & R & HQ). rewrite leb_scaled, E by (assumption || now apply (integrable_shape _ _ _ _ Hk)).
    eexists. split; [reflexivity|]. split; [exact R|]. now apply Q_scale.
  - assert (Hall : forall k', In k' (k :: ks) -> exists x, lebesgue_cov k' a b arg = Ok x /\ x_reverse x = (arg =? 0)%nat /\ Q (line k') x).
    { intros k' H. apply IH; [exact H|]. now apply (I_sum _ _ HI). }
    assert (Hs : c_shape k = []) by (apply (integrable_shape arg a b); apply Hks; now left).
    rewrite leb_sum by assumption. clear IH Hks Hs HI.
    destruct (Hall k (or_introl eq_refl)) as (x & E & R & HQ). rewrite E. cbn [bind].
    assert (G : forall f x, Q f x -> x_reverse x = (arg =? 0)%nat -> exists y, go a b arg ks x = Ok y /\ x_reverse y = (arg =? 0)%nat
      /\ Q (fun u v => f u v + rsum (map (fun k => line k u v) ks)) y).
    { assert (H : forall k', In k' ks -> exists x, lebesgue_cov k' a b arg = Ok x /\ x_reverse x = (arg =? 0)%nat /\ Q (line k') x) by (intros k' H; apply Hall; now right).
      clear -H Q_ext Q_add. induction ks as [|k' ks IH]; intros f x HQ R.
      - exists x. split; [reflexivity|]. split; [exact R|]. apply Q_ext with (2 := HQ). intros u v. cbn. ring.
      - destruct (H k' (or_introl eq_refl)) as (x' & E & R' & HQ'). cbn [go]. rewrite E. cbn [bind]. unfold x_add. rewrite R, R', eqb_reflx. cbn [bind].
        destruct (IH (fun k H' => H k (or_intror H')) (fun u v => f u v + line k' u v) (XSum x x')) as (y & Ey & Ry & Qy); [now apply Q_add|exact R|].
        exists y. split; [exact Ey|]. split; [exact Ry|]. apply Q_ext with (2 := Qy). intros u v. cbn [map]. unfold rsum. cbn [fold_right]. ring. }
    destruct (G _ _ HQ R) as (y & Ey & Ry & Qy). exists y. split; [exact Ey|]. split; [exact Ry|]. apply Q_ext with (2 := Qy).
    intros u v. unfold line. cbn [ceval map]. unfold rsum. reflexivity.
Qed.
End Lift.

Lemma int_scale s f arg a b t v : integral_in arg f a b t v -> integral_in arg (fun u w => s * f u w) a b t (s * v).
Proof. intros H. unfold integral_in in *. destruct arg; apply (is_RInt_scal _ _ _ s _ H). Qed.
Lemma int_plus f g arg a b t v w : integral_in arg f a b t v -> integral_in arg g a b t w -> integral_in arg (fun x y => f x y + g x y) a b t (v + w).
Proof. intros H1 H2. unfold integral_in in *. destruct arg; apply (is_RInt_plus _ _ _ _ _ _ H1 H2). Qed.
Lemma int_ext f g arg a b t v : (forall x y, f x y = g x y) -> integral_in arg f a b t v -> integral_in arg g a b t v.
Proof. intros E H. unfold integral_in in *. apply is_RInt_ext with (2 := H). intros u _. destruct arg; apply E. Qed.

(** The integral over one argument of any scaled sum of such kernels. *)
Theorem C39_single : forall k a b arg, (arg < 2)%nat -> integrable arg a b k ->
  exists x, lebesgue_cov k a b arg = Ok x /\ x_reverse x = (arg =? 0)%nat /\
  forall t, integral_in arg (line k) a b t (x_eval x t).
Proof.
  intros k a b arg Ha HI. apply (lift arg a b (fun _ => True) (fun f x => forall t, integral_in arg f a b t (x_eval x t))); try trivial.
  - intros f g x E H t. now apply int_ext with (1 := E).
  - intros s f x H t. cbn [x_eval]. now apply int_scale.
  - intros f g x y H1 H2 t. cbn [x_eval]. now apply int_plus.
  - intros m p Hs Hn Hl t. cbn [x_eval]. now apply mat_single.
  - intros k' _ _ _ _ He Hy t. cbn [x_eval]. unfold integral_in. pose proof (RInt_correct _ _ _ (He t)) as X.
    destruct arg; [|exact X]. apply is_RInt_ext with (2 := X). intros u _. now apply Hy.
Qed.
Print Assumptions C39_single.

(** For both arguments the iterated integrals of the kernels without closed form must exist
    and agree. *)
Inductive both_ok (arg : nat) (a b c d : R) : cov -> Prop :=
| BMat m p : mt_nu m = HalfInt p -> both_ok arg a b c d (CMat m)
| BOther k v : no_closed_form k -> match arg with O => integral_both (line k) a b c d v | _ => integral_both (line k) c d a b v end -> both_ok arg a b c d k
| BScaled s k : both_ok arg a b c d k -> both_ok arg a b c d (CScaled s k)
| BSum ks : (forall k, In k ks -> both_ok arg a b c d k) -> both_ok arg a b c d (CSum ks).

Lemma both_scale s f a b c d v : integral_both f a b c d v -> integral_both (fun x y => s * f x y) a b c d (s * v).
Proof.
  intros [(g & H1 & H2) (h & H3 & H4)]. split.
  - exists (fun x => s * g x). split; [intros x; now apply int_scale|apply (is_RInt_scal _ _ _ s _ H2)].
  - exists (fun x => s * h x). split; [intros x; now apply int_scale|apply (is_RInt_scal _ _ _ s _ H4)].
Qed.
Lemma both_plus f g a b c d v w : integral_both f a b c d v -> integral_both g a b c d w -> integral_both (fun x y => f x y + g x y) a b c d (v + w).
Proof.
  intros [(g1 & H1 & H2) (h1 & H3 & H4)] [(g2 & H5 & H6) (h2 & H7 & H8)]. split.
  - exists (fun x => g1 x + g2 x). split; [intros x; now apply int_plus|apply (is_RInt_plus _ _ _ _ _ _ H2 H6)].
  - exists (fun x => h1 x + h2 x). split; [intros x; now apply int_plus|apply (is_RInt_plus _ _ _ _ _ _ H4 H8)].
Qed.
Lemma both_ext f g a b c d v : (forall x y, f x y = g x y) -> integral_both f a b c d v -> integral_both g a b c d v.
Proof.
  intros E [(g1 & H1 & H2) (h1 & H3 & H4)]. split.
  - exists g1. split; [intros x; now apply int_ext with (1 := E)|exact H2].
  - exists h1. split; [intros x; now apply int_ext with (1 := E)|exact H4].
Qed.
Lemma both_quad k a b c d v : integral_both (line k) a b c d v ->
  RInt (fun x0 => RInt (fun x1 => ceval k (pt x0) (pt x1)) c d) a b = v.
Proof.
  intros [(g & H1 & H2) _]. apply is_RInt_unique. apply is_RInt_ext with (2 := H2). intros x _. symmetry. apply is_RInt_unique. apply H1.
Qed.

Theorem C39_double : forall k a b c d arg, (arg < 2)%nat -> integrable arg a b k -> both_ok arg a b c d k ->
  exists x, lebesgue_cov k a b arg = Ok x /\
  match arg with
  | O => integral_both (line k) a b c d (lebesgue_x x c d)
  | _ => integral_both (line k) c d a b (lebesgue_x x c d)
  end.
Proof.
  intros k a b c d arg Ha HI HB.
  destruct (lift arg a b (both_ok arg a b c d) (fun f x => match arg with O => integral_both f a b c d (lebesgue_x x c d) | _ => integral_both f c d a b (lebesgue_x x c d) end)) with (k := k) as (x & E & _ & Q); try assumption.
  - intros f g x E H. destruct arg; now apply both_ext with (1 := E).
  - intros s f x H. cbn [lebesgue_x]. destruct arg; now apply both_scale.
  - intros f g x y H1 H2. cbn [lebesgue_x]. destruct arg; now apply both_plus.
  - intros m p Hs Hn Hl. cbn [lebesgue_x]. destruct arg; [rewrite double_sym|]; now apply mat_both.
  - intros k' HB' _ Hn _ _ _. cbn [lebesgue_x]. inversion HB' as [m p Hp|k0 v _ Hv| |]; subst; try contradiction.
    + cbn [no_closed_form] in Hn. rewrite Hp in Hn. contradiction.
    + destruct arg; cbn [Nat.eqb]; rewrite (both_quad _ _ _ _ _ v Hv); exact Hv.
  - intros s k' H. inversion H; subst; [contradiction|assumption].
  - intros ks k' H Hin. inversion H; subst; [contradiction|auto].
  - now exists x.
Qed.
Print Assumptions C39_double.

(** Validation. *)
Theorem C39_bad_argnum : forall k a b arg, (1 < arg)%nat -> lebesgue_cov k a b arg = Err ValueError.
Proof. intros k a b arg H. apply Nat.ltb_lt in H. destruct k; cbn [lebesgue_cov]; now rewrite H. Qed.
Print Assumptions C39_bad_argnum.
Theorem C39_bad_shape : forall k a b arg, k <> CNotImpl -> c_shape k <> [] -> lebesgue_cov k a b arg = Err ValueError.
Proof.
  intros k a b arg Hk Hs. assert (X : forall sh, sh <> [] -> negb (shape_eqb sh []) = true) by (intros [|n sh] H; [contradiction|reflexivity]).
  destruct (Nat.ltb_spec 1 arg) as [H|H]; [now apply C39_bad_argnum|].
  assert (L : (1 <? arg)%nat = false) by now apply Nat.ltb_ge. specialize (X _ Hs).
  destruct k; cbn [lebesgue_cov c_shape] in *; rewrite L; try (rewrite X; reflexivity); congruence.
Qed.
Print Assumptions C39_bad_shape.

(** Integrating the first argument of a kernel without closed form integrates the second
    one: for the derivative of the squared exponential kernel the sign is wrong. *)
Theorem C39_first_argument_refuted : exists k x t v, c_shape k = [] /\
  (forall y, ex_RInt (fun u => line k y u) 0 1) /\
  lebesgue_cov k 0 1 0 = Ok x /\ integral_in 0 (line k) 0 1 t v /\ x_eval x t <> v.
Proof.
  set (ee := ExpQuad [] (fun _ => 1)). set (k := CExpDir ee (fun _ => 1) false).
  assert (S2 : sqrt 2 * sqrt 2 = 2) by (apply sqrt_sqrt; lra).
  assert (L : forall x y, line k x y = (x - y) * exp (- (1/2) * (x - y) ^ 2)).
  { intros x y. unfold line, k. cbn [ceval]. unfold expdir_eval, bnorm_sq, bsum, expdir_rescaled, rsum, vdiff, pt, ee. cbn [eq_shape eq_len all_indices map fold_right].
    replace ((x - y) / 1) with (x - y) by field. rewrite !Rplus_0_r. field. }
  assert (D : forall y x, is_derive (fun x => - exp (- (1/2) * (x - y) ^ 2)) x (line k x y)).
  { intros y x. rewrite L. auto_derive; [trivial|]. match goal with |- context[exp ?t] => replace t with (- (1/2) * (x - y) ^ 2) by (cbn; field) end. field. }
  assert (D' : forall x y, is_derive (fun y => exp (- (1/2) * (x - y) ^ 2)) y (line k x y)).
  { intros x y. rewrite L. auto_derive; [trivial|]. match goal with |- context[exp ?t] => replace t with (- (1/2) * (x - y) ^ 2) by (cbn; field) end. field. }
  assert (C : forall x u, continuous (fun u => line k x u) u).
  { intros x u. apply (continuous_ext (fun u => (x - u) * exp (- (1/2) * (x - u) ^ 2))); [intros; symmetry; apply L|].
    apply (ex_derive_continuous (fun u => (x - u) * exp (- (1/2) * (x - u) ^ 2))). auto_derive. trivial. }
  assert (C' : forall x u, continuous (fun u => line k u x) u).
  { intros x u. apply (continuous_ext (fun u => (u - x) * exp (- (1/2) * (u - x) ^ 2))); [intros; symmetry; apply L|].
    apply (ex_derive_continuous (fun u => (u - x) * exp (- (1/2) * (u - x) ^ 2))). auto_derive. trivial. }
  pose proof (is_RInt_derive _ _ 0 1 (fun u _ => D 0 u) (fun u _ => C' 0 u)) as I0.
  pose proof (fun x => is_RInt_derive _ _ 0 1 (fun u _ => D' x u) (fun u _ => C x u)) as I1.
  exists k, (XQuad k 0 1 true), 0. eexists. split; [reflexivity|]. split; [intros x; eexists; apply I1|]. split; [reflexivity|]. split; [exact I0|].
  cbn [x_eval]. pose proof (is_RInt_unique _ _ _ _ (I1 0)) as U. unfold line in U. rewrite U. clear.
  assert (X : exp (- (1/2)) < 1) by (apply Rlt_le_trans with (exp 0); [apply exp_increasing; lra|rewrite exp_0; lra]).
  unfold minus, plus, opp; cbn -[exp].
  repeat match goal with |- context[exp ?t] => first [ (assert (t = - (1/2)) as -> by field) | (assert (t = 0) as -> by field); rewrite exp_0 ] end.
  lra.
Qed.
Print Assumptions C39_first_argument_refuted.

Example C39_example :
  let m := Matern [] (fun _ => 2) (HalfInt 2) in
  exists x, lebesgue_cov (CSum [CScaled 3 (CMat m); CMat m]) 0 1 0 = Ok x /\ x_reverse x = true.
Proof. eexists. split; reflexivity. Qed.
Example C39_example_integrable :
  let m := Matern [] (fun _ => 2) (HalfInt 2) in
  integrable 0 0 1 (CSum [CScaled 3 (CMat m); CMat m]) /\ both_ok 0 0 1 2 5 (CSum [CScaled 3 (CMat m); CMat m]).
Proof.
  cbv zeta. set (m := Matern [] (fun _ => 2) (HalfInt 2)). split.
  - apply ISum. assert (H : integrable 0 0 1 (CMat m)) by (apply IMat with 2%nat; [reflexivity|reflexivity|cbn; lra]).
    intros k [<-|[<-|[]]]; [now apply IScaled|exact H].
  - apply BSum. assert (H : both_ok 0 0 1 2 5 (CMat m)) by (apply BMat with 2%nat; reflexivity).
    intros k [<-|[<-|[]]]; [now apply BScaled|exact H].
Qed.
