(** C56, C40, C27: joint covariances of values, integrals and projections of processes on
    the real line. *)
From Coq Require Import List Arith Lia Reals Lra ZArith Bool.
From Coquelicot Require Import Coquelicot.
From Verif Require Import Base NdArray PolyModel PolyClassModel FunExprModel LfoModel LfoSpec KernelModel KernelSpec
  MaternPoly MaternProps MaternProofs MaternUni ExpQuadProofs IntegralModel IntegralSpec IntegralProofs IntegralProps
  ParamSpec ParamProofs TensorSchur PsdBase PsdMatern PsdProps PsdIntegral
  FemModel FemSpec FemProofs FemProps FemIntegral PiecewiseSpec ProjModel ProjSpec ProjProofs ProjProps GalerkinSpec GalerkinProps GalerkinL2Proofs GalerkinL2Props.
Import ListNotations.
Open Scope R_scope.

(** ** Priors on the line: squared exponential, half-integer Matérn, scaled and summed *)
Inductive line_prior : cov -> Prop :=
| LPExp e : eq_shape e = [] -> line_prior (CExp e)
| LPMat m p : mt_shape m = [] -> mt_nu m = HalfInt p -> 0 < mt_len m [] -> line_prior (CMat m)
| LPScaled s k : 0 <= s -> line_prior k -> line_prior (CScaled s k)
| LPSum k ks : (forall k', In k' (k :: ks) -> line_prior k') -> line_prior (CSum (k :: ks)).

Lemma cont2_comp (h : R -> R) G : (forall x, continuous h x) -> cont2 G -> cont2 (fun x y => h (G x y)).
Proof. intros Ch HG x y. apply continuity_1d_2d_pt_comp; [|apply HG]. apply continuity_pt_filterlim. apply Ch. Qed.
Lemma cont2_add G H : cont2 G -> cont2 H -> cont2 (fun x y => G x y + H x y).
Proof. intros A B x y. now apply continuity_2d_pt_plus. Qed.
Lemma cont2_const c : cont2 (fun _ _ => c).
Proof. intros x y. apply continuity_2d_pt_const. Qed.
Lemma cont2_ext G H : (forall x y, G x y = H x y) -> cont2 G -> cont2 H.
Proof. intros E A x y. apply (continuity_2d_pt_ext G); [exact E|apply A]. Qed.
Lemma cont2_diff : cont2 (fun x y => x - y).
Proof. intros x y. apply continuity_2d_pt_minus; [apply continuity_2d_pt_id1|apply continuity_2d_pt_id2]. Qed.

Lemma exp_line e x y : eq_shape e = [] -> line (CExp e) x y = exp (- / 2 * ((x - y) / eq_len e []) ^ 2).
Proof. intros Hs. unfold line. rewrite ev_spec. unfold expquad_fun. rewrite Hs. cbn [all_indices map]. unfold total. cbn [fold_right]. rewrite Rplus_0_r. reflexivity. Qed.
Lemma prior_cont k : line_prior k -> cont2 (line k).
Proof.
  induction 1 as [e Hs|m p Hs Hn Hl|s k Hs Hk IH|k ks Hks IH].
  - apply (cont2_ext (fun x y => exp (- / 2 * ((x - y) / eq_len e []) ^ 2))); [intros; symmetry; now apply exp_line|].
    apply (cont2_comp (fun u => exp (- / 2 * (u / eq_len e []) ^ 2)) (fun x y => x - y)); [|apply cont2_diff].
    intros u. apply (ex_derive_continuous (fun u => exp (- / 2 * (u / eq_len e []) ^ 2))). auto_derive. trivial.
  - apply (cont2_ext (matern_line p (mt_len m []))); [intros; symmetry; now apply eval_line|]. unfold matern_line.
    apply (cont2_comp (fun u => matern_half p (sqrt (2 * INR p + 1) * u)) (fun x y => Rabs (x - y) / mt_len m [])).
    + intros u. pose proof (half_cont p u) as H. revert H. apply continuous_ext. intros v. now rewrite s_eq.
    + apply (cont2_comp (fun u => Rabs u / mt_len m []) (fun x y => x - y)); [|apply cont2_diff]. intros u. unfold Rdiv. apply ProjProps.cmul; [apply continuous_Rabs|apply cconst].
  - apply (cont2_ext (fun x y => s * line k x y)); [reflexivity|]. apply cont2_mult; [apply cont2_const|exact IH].
  - apply (cont2_ext (fun x y => rsum (map (fun k => line k x y) (k :: ks)))); [reflexivity|]. clear Hks. revert IH. generalize (k :: ks). intros l IH. induction l as [|a l IHl].
    + apply (cont2_ext (fun _ _ => 0)); [reflexivity|apply cont2_const].
    + apply (cont2_ext (fun x y => line a x y + rsum (map (fun k => line k x y) l))); [reflexivity|]. apply cont2_add; [apply IH; now left|apply IHl; intros k' Hk'; apply IH; now right].
Qed.
Lemma prior_sym k : line_prior k -> forall x y, line k x y = line k y x.
Proof.
  induction 1 as [e Hs|m p Hs Hn Hl|s k Hs Hk IH|k ks Hks IH]; intros x y.
  - rewrite !exp_line by exact Hs. f_equal. unfold Rdiv. ring.
  - unfold line. rewrite !(eval_line m p) by assumption. unfold matern_line. now rewrite Rabs_minus_sym.
  - unfold line in *. cbn [ceval]. now rewrite IH.
  - unfold line in *. cbn [ceval]. f_equal. apply map_ext_in. intros k' Hk'. now apply IH.
Qed.
Lemma prior_psd k : line_prior k -> psd_kernel (ceval k : array -> array -> RF).
Proof.
  induction 1 as [e Hs|m p Hs Hn Hl|s k Hs Hk IH|k ks Hks IH].
  - apply (psd_ext (expquad_fun (eq_shape e) (eq_len e) : array -> array -> RF)); [intros; symmetry; apply ev_spec|apply expquad_psd].
  - now apply (C56_matern_gram m p).
  - apply (psd_ext (fun x y => s * ceval k x y : car RF)); [reflexivity|]. now apply psd_scal.
  - apply (psd_ext (fun x y => sumR (fun k => ceval k x y) (k :: ks) : car RF)); [reflexivity|]. now apply (psd_sumR (fun k => ceval k)).
Qed.
Lemma prior_line_psd k : line_prior k -> psd_kernel (line k : R -> R -> RF).
Proof.
  intros H l. pose proof (prior_psd k H (map (fun p => (fst p, IntegralModel.pt (snd p))) l)) as P. rewrite map_map in P. cbn [fst snd] in P.
  match type of P with 0 <= ?a => match goal with |- 0 <= ?b => replace b with a; [exact P|] end end. apply (sum_ext (F := RF)). intros p _. now rewrite map_map.
Qed.
Lemma prior_integrable k arg a b : line_prior k -> integrable arg a b k.
Proof.
  intros H. induction H as [e Hs|m p Hs Hn Hl|s k Hs Hk IH|k ks Hks IH].
  - assert (H : line_prior (CExp e)) by now constructor. apply IOther; [exact Logic.I|exact Hs| |].
    + intros t. apply cont_int. now apply (cont2_right (line (CExp e))), prior_cont.
    + intros _. now apply prior_sym.
  - now apply (IMat _ _ _ m p).
  - now constructor.
  - now constructor.
Qed.
Lemma both_int G a b c d : a <= b -> c <= d -> cont2 G -> integral_both G a b c d (RInt (fun x => RInt (G x) c d) a b).
Proof.
  intros Hab Hcd HG. split.
  - exists (fun x => RInt (G x) c d). split.
    + intros x. apply (@RInt_correct R_CompleteNormedModule). apply cont_int. now apply cont2_right.
    + apply (@RInt_correct R_CompleteNormedModule). apply cont_int. now apply inner_cont.
  - exists (fun y => RInt (fun x => G x y) a b). split.
    + intros y. apply (@RInt_correct R_CompleteNormedModule). apply cont_int. now apply cont2_left.
    + rewrite fubini by assumption. apply (@RInt_correct R_CompleteNormedModule). apply cont_int. apply (inner_cont (fun y x => G x y)); [exact Hab|now apply cont2_swap].
Qed.
Lemma prior_both k arg a b c d : a <= b -> c <= d -> line_prior k -> both_ok arg a b c d k.
Proof.
  intros Hab Hcd H. induction H as [e Hs|m p Hs Hn Hl|s k Hs Hk IH|k ks Hks IH].
  - assert (H : line_prior (CExp e)) by now constructor. destruct arg as [|arg].
    + apply (BOther _ _ _ _ _ _ (RInt (fun x => RInt (line (CExp e) x) c d) a b)); [exact Logic.I|]. apply both_int; try assumption. now apply prior_cont.
    + apply (BOther _ _ _ _ _ _ (RInt (fun x => RInt (line (CExp e) x) a b) c d)); [exact Logic.I|]. apply both_int; try assumption. now apply prior_cont.
  - now apply (BMat _ _ _ _ _ m p).
  - now constructor.
  - now constructor.
Qed.

(** ** Values and integrals *)
(** Observed quantities: the value at a point or the integral over an interval. *)
Inductive iobs := Value (x : R) | Integral (a b : R).
Definition iobs_ok (o : iobs) : Prop := match o with Value _ => True | Integral a b => a <= b end.
(** Their covariance, put together from what the library returns: the integral applied to
    the second argument of the kernel first, then to the first one. *)
Definition icov (k : cov) (o o' : iobs) : result R :=
  match o, o' with
  | Value x, Value y => Ok (ceval k (IntegralModel.pt x) (IntegralModel.pt y))
  | Value x, Integral c d => bind (lebesgue_cov k c d 1) (fun z => Ok (x_eval z x))
  | Integral a b, Value y => bind (lebesgue_cov k a b 0) (fun z => Ok (x_eval z y))
  | Integral a b, Integral c d => bind (lebesgue_cov k c d 1) (fun z => Ok (lebesgue_x z a b))
  end.
Definition to_obs (o : iobs) : obs := match o with Value x => At x | Integral a b => Int (fun _ => 1) a b end.
Lemma to_obs_ok o : iobs_ok o -> obs_ok (to_obs o).
Proof. destruct o; [auto|]. intros H. split; [exact H|]. intros; apply continuous_const. Qed.
Lemma one_int (f : R -> R) a b : RInt (fun t => 1 * f t) a b = RInt f a b.
Proof. apply RInt_ext. intros. apply Rmult_1_l. Qed.
Lemma icov_value k o o' : line_prior k -> iobs_ok o -> iobs_ok o' -> icov k o o' = Ok (obs_cov (line k) (to_obs o) (to_obs o')).
Proof.
  intros Hk Ho Ho'. destruct o as [x|a b], o' as [y|c d]; cbn [icov to_obs]; unfold obs_cov, obs_val.
  - reflexivity.
  - destruct (C39_single k c d 1 ltac:(lia) (prior_integrable k 1 c d Hk)) as (z & -> & _ & Hz). cbn [bind]. f_equal. specialize (Hz x). rewrite one_int.
    symmetry. now apply is_RInt_unique.
  - destruct (C39_single k a b 0 ltac:(lia) (prior_integrable k 0 a b Hk)) as (z & -> & _ & Hz). cbn [bind]. f_equal. specialize (Hz y). rewrite one_int.
    symmetry. apply (is_RInt_unique (fun x => line k x y)). exact Hz.
  - destruct (C39_double k c d a b 1 ltac:(lia) (prior_integrable k 1 c d Hk) (prior_both k 1 c d a b Ho' Ho Hk)) as (z & -> & [Hz _]). cbn [bind]. f_equal.
    destruct Hz as (f & Hf & If). rewrite one_int. symmetry. apply is_RInt_unique. apply (@is_RInt_ext R_NormedModule) with (2 := If).
    intros x _. rewrite one_int. symmetry. apply is_RInt_unique. exact (Hf x).
Qed.
(** All covariances exist, they are symmetric, and every linear combination of the
    observed quantities has a non-negative variance. *)
Theorem C56_integrals : forall k, line_prior k -> exists K : iobs -> iobs -> R,
  (forall o o', iobs_ok o -> iobs_ok o' -> icov k o o' = Ok (K o o') /\ K o o' = K o' o) /\
  forall l : list (R * iobs), (forall p, In p l -> iobs_ok (snd p)) ->
    0 <= @fsum RF (map (fun p => @fsum RF (map (fun q => fst p * fst q * K (snd p) (snd q)) l)) l).
Proof.
  intros k Hk. exists (fun o o' => obs_cov (line k) (to_obs o) (to_obs o')). split.
  - intros o o' Ho Ho'. split; [now apply icov_value|]. apply obs_sym; [now apply prior_cont|now apply prior_sym|now apply to_obs_ok|now apply to_obs_ok].
  - intros l Hl. pose proof (obs_psd (line k) (prior_cont k Hk) (prior_line_psd k Hk)) as P.
    assert (E : exists m : list (R * {o : obs | obs_ok o}), map (fun p => (fst p, to_obs (snd p))) l = map (fun p => (fst p, proj1_sig (snd p))) m).
    { clear P. induction l as [|[c o] l IH]; [now exists []|]. destruct IH as [m Hm]; [intros p Hp; apply Hl; now right|].
      exists ((c, exist obs_ok (to_obs o) (to_obs_ok o (Hl _ (or_introl eq_refl)))) :: m). cbn [map fst snd proj1_sig]. now rewrite Hm. }
    destruct E as [m Hm]. specialize (P m). change (0 <= form (obs_cov (line k)) (map (fun p => (fst p, proj1_sig (snd p))) m)) || idtac.
    assert (F : form (obs_cov (line k)) (map (fun p => (fst p, to_obs (snd p))) l) = form (fun o o' => obs_cov (line k) (proj1_sig o) (proj1_sig o')) m).
    { rewrite Hm. unfold form. rewrite sumR_map. apply sumR_ext. intros p _. rewrite sumR_map. reflexivity. }
    assert (G : form (obs_cov (line k)) (map (fun p => (fst p, to_obs (snd p))) l) = form (fun o o' => obs_cov (line k) (to_obs o) (to_obs o')) l).
    { unfold form. rewrite sumR_map. apply sumR_ext. intros p _. rewrite sumR_map. reflexivity. }
    change (0 <= form (fun o o' => obs_cov (line k) (to_obs o) (to_obs o')) l). rewrite <- G, F. exact P.
Qed.
Example C56_integrals_example : line_prior (CSum [CScaled 2 (CMat (Matern [] (fun _ => 3) (HalfInt 1))); CExp (ExpQuad [] (fun _ => 1))]) /\
  iobs_ok (Value 5) /\ iobs_ok (Integral 0 1).
Proof.
  split; [|split; cbn; lra]. apply LPSum. intros k' [<-|[<-|[]]]; [apply LPScaled; [lra|]; apply (LPMat _ 1); cbn; auto; lra|now apply LPExp].
Qed.
Print Assumptions C56_integrals.

(** ** L2 projections *)
Section Proj.
Variables (grid : list R) (zb : bool) (b : basis) (nz : bool).
Hypothesis Hinc : increasing grid.
Hypothesis Hb : basis_init grid zb = Ok b.
Variable V : nat -> nat -> R.
Hypothesis HV : forall res, normalizer_gives b nz res (fun i => sum_upto (b_len b) (fun j => V i j * res j)).
Lemma proj_coefficients f g w : (forall t, left_end grid <= t <= right_end grid -> f t = g t) -> (forall t, continuous g t) ->
  l2_projection (b_len b) (hats b) (left_end grid) (right_end grid) nz f w ->
  forall i, (i < b_len b)%nat -> w i = RInt (fun t => weight b V i t * g t) (left_end grid) (right_end grid).
Proof.
  intros E Cg H. set (lo := left_end grid) in *. set (hi := right_end grid) in *.
  set (res := fun i => RInt (fun t => elem_fun b i t * g t) lo hi).
  assert (IR : forall i, (i < b_len b)%nat -> is_RInt (fun t => hats b i t * f t) lo hi (res i)).
  { intros i Hi. exact (c09_quad grid zb b Hinc Hb f _ (rhs_ok grid zb b Hinc Hb f g E Cg) i Hi). }
  assert (W : normalizer_gives b nz res w).
  { destruct nz.
    - intros i Hi. specialize (H i Hi). cbv iota in H.
      assert (H2 : is_RInt (fun t => sum_upto (b_len b) (fun j => w j * (basis_eval b t i * basis_eval b t j))) lo hi (sum_upto (b_len b) (fun j => w j * mass_matrix b i j))).
      { apply is_RInt_sum. intros j Hj. apply (@is_RInt_scal R_NormedModule). now apply (c09_mass grid zb). }
      pose proof (@is_RInt_plus R_NormedModule _ _ _ _ _ _ H H2) as H3.
      assert (H4 : is_RInt (fun t => hats b i t * f t) lo hi (0 + sum_upto (b_len b) (fun j => w j * mass_matrix b i j))).
      { apply (@is_RInt_ext R_NormedModule) with (2 := H3). intros t _. unfold plus. cbn. unfold hats. rewrite Rmult_minus_distr_l.
        replace (basis_eval b t i * sum_upto (b_len b) (fun j => w j * basis_eval b t j)) with (sum_upto (b_len b) (fun j => w j * (basis_eval b t i * basis_eval b t j))).
        - match goal with |- @eq _ ?a ?c => change (@eq R a c) end. ring.
        - rewrite <- sum_upto_scal. apply sum_upto_ext. intros. ring. }
      fold (sum_upto (b_len b) (fun j => mass_matrix b i j * w j)). rewrite <- (is_RInt_unique _ _ _ _ (IR i Hi)), (is_RInt_unique _ _ _ _ H4), Rplus_0_l. apply sum_upto_ext. intros. ring.
    - intros i Hi. specialize (H i Hi). cbv iota in H. rewrite <- (is_RInt_unique _ _ _ _ H). apply (is_RInt_unique _ _ _ _ (IR i Hi)). }
  exact (coefficients grid zb b nz Hinc Hb V HV f g w res E Cg (rhs_ok grid zb b Hinc Hb f g E Cg) W).
Qed.
End Proj.
(** The joint covariance of values of the process and of the coefficients of its projection
    is symmetric and positive semidefinite: [x] is what the library returns for the
    projection of the kernel, [c t] its value at [t], [w] the covariance matrix of the
    coefficients. *)
Theorem C40_psd : forall grid zb b nz k, increasing grid -> basis_init grid zb = Ok b -> line_prior k -> projectable b 1 k ->
  exists x, proj_cov k (Proj b nz) 1 = Ok x /\
  forall c w, (forall t, p_gives x t (c t)) -> p_double (Proj b nz) x w ->
  (forall i j, (i < b_len b)%nat -> (j < b_len b)%nat -> w i j = w j i) /\
  forall l d, 0 <= joint_variance (b_len b) (line k) c w l d.
Proof.
  intros grid zb b nz k Hinc Hb Hk Hp. pose proof (prior_cont k Hk) as Ck. pose proof (prior_sym k Hk) as Sk.
  destruct (C40_single grid zb b nz k 1 Hinc Hb ltac:(lia) Hp) as (x & Ex & _ & H1).
  assert (IO : inner_ok b (left_end grid) (right_end grid) k).
  { clear - Hk Hinc Hb. induction Hk as [e Hs|m p Hs Hn Hl|s k Hs Hk IH|k ks Hks IH]; [..|now constructor|now constructor].
    - assert (H : line_prior (CExp e)) by now constructor. apply NLeaf; try (intros; discriminate). intros t j Hj. apply (hat_times_cont grid zb b (line (CExp e) t) j Hinc Hb); [|exact Hj]. now apply cont2_right, prior_cont.
    - assert (H : line_prior (CMat m)) by now apply (LPMat m p). apply NLeaf; try (intros; discriminate). intros t j Hj. apply (hat_times_cont grid zb b (line (CMat m) t) j Hinc Hb); [|exact Hj]. now apply cont2_right, prior_cont. }
  destruct (C40_double grid grid zb zb b b nz nz k 1 Hinc Hinc Hb Hb ltac:(lia) Hp IO) as (x' & Ex' & H2). rewrite Ex in Ex'. injection Ex' as <-.
  exists x. split; [exact Ex|]. intros c w Hc Hw. destruct (normalizer_matrix grid zb b Hinc Hb nz) as [V HV].
  set (lo := left_end grid) in *. set (hi := right_end grid) in *. set (n := b_len b) in *.
  assert (CV : forall t j, (j < n)%nat -> c t j = obs_cov (line k) (At t) (Int (weight b V j) lo hi)).
  { intros t j Hj. destruct (H1 t) as [_ H]. specialize (H _ (Hc t)). unfold l2_in in H. cbv beta iota in H.
    exact (proj_coefficients grid zb b nz Hinc Hb V HV (line k t) (line k t) (c t) (fun _ _ => eq_refl) (cont2_right _ t Ck) H j Hj). }
  assert (WV : forall i j, (i < n)%nat -> (j < n)%nat -> w i j = obs_cov (line k) (Int (weight b V i) lo hi) (Int (weight b V j) lo hi)).
  { intros i j Hi Hj. destruct (H2 w Hw) as (g & G1 & G2). specialize (G2 j Hj).
    assert (GV : forall t, g t j = RInt (fun u => weight b V j u * line k t u) lo hi).
    { intros t. exact (proj_coefficients grid zb b nz Hinc Hb V HV (line k t) (line k t) (g t) (fun _ _ => eq_refl) (cont2_right _ t Ck) (G1 t) j Hj). }
    apply (proj_coefficients grid zb b nz Hinc Hb V HV (fun t => g t j) (fun t => RInt (fun u => weight b V j u * line k t u) lo hi) (fun i => w i j)); [intros t _; apply GV| |exact G2|exact Hi].
    apply (inner_cont (fun t u => weight b V j u * line k t u) lo hi (lo_hi grid zb b Hinc Hb)). apply cont2_mult; [|exact Ck]. apply cont2_snd, (weight_cont grid zb b Hinc Hb V). }
  assert (OK : forall i, obs_ok (Int (weight b V i) lo hi)) by (intros i; split; [apply (lo_hi grid zb b Hinc Hb)|apply (weight_cont grid zb b Hinc Hb V)]).
  split.
  - intros i j Hi Hj. rewrite !WV by assumption. apply obs_sym; auto.
  - intros l d. set (ok := fun o o' : {o : obs | obs_ok o} => obs_cov (line k) (proj1_sig o) (proj1_sig o') : RF).
    set (t := fun i => exist obs_ok (Int (weight b V i) lo hi) (OK i)). set (pto := fun x : R => exist obs_ok (At x) Logic.I).
    assert (J' : 0 <= joint_variance n ok (fun x j => ok x (t j)) (fun i j => ok (t i) (t j)) (map (fun p => (fst p, pto (snd p))) l) d).
    { apply joint_interpolation; [|apply obs_psd; [exact Ck|now apply prior_line_psd]]. intros [o Ho] [o' Ho']. unfold ok. cbn. now apply obs_sym. }
    match type of J' with 0 <= ?a => match goal with |- 0 <= ?b => replace b with a; [exact J'|] end end.
    unfold joint_variance. f_equal; [f_equal; [|f_equal]|].
    + rewrite map_map. apply (sum_ext (F := RF)). intros p _. rewrite map_map. reflexivity.
    + rewrite map_map. apply (sum_ext (F := RF)). intros p _. cbn [fst snd]. f_equal. apply (dot_ext (F := RF)); [|reflexivity]. intros j Hj. symmetry. exact (CV (snd p) j Hj).
    + apply (bilinear_ext (F := RF)); try reflexivity. intros i j Hi Hj. symmetry. now apply WV.
Qed.
Print Assumptions C40_psd.
(** The Matérn-3/2 kernel on any basis: projectable, and the matrix exists
    ([C40_matern32], [C40_matern32_double]). *)
Example C40_psd_example : line_prior (CMat (Matern [] (fun _ => 1) (HalfInt 1))) /\
  projectable (mkbasis [0; 1; 2] true) 1 (CMat (Matern [] (fun _ => 1) (HalfInt 1))) /\ basis_init [0; 1; 2] true = Ok (mkbasis [0; 1; 2] true) /\ increasing [0; 1; 2].
Proof. split; [apply (LPMat _ 1)|split; [apply RMat|split; [reflexivity|exact incr012]]]; cbn; auto; lra. Qed.

(** Every such prior meets the hypotheses of the Galerkin theorems. *)
Corollary C27_l2_prior : forall k, line_prior k -> plane_continuous (line k) /\ symmetric (line k) /\ psd_kernel (line k : R -> R -> RF).
Proof. intros k H. split; [exact (prior_cont k H)|split; [exact (prior_sym k H)|exact (prior_line_psd k H)]]. Qed.
Print Assumptions C27_l2_prior.
