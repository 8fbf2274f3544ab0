(** The L2 projection onto linear finite elements is integration against continuous
    weights; the joint covariance of values and coefficients. *)
From Coq Require Import List Arith Lia Reals Lra ZArith.
From Coquelicot Require Import Coquelicot.
From Verif Require Import Base NdArray NdData CrossModel ParamModel ParamSpec ParamProofs TensorSchur PsdBase PsdIntegral
  FemModel FemSpec FemProofs FemProps FemIntegral PiecewiseSpec ProjSpec ProjProofs ProjProps GalerkinModel GalerkinSpec GalerkinProofs GalerkinProps GalerkinL2Model.
Import ListNotations.
Open Scope R_scope.

(** ** Hats are continuous *)
Lemma hat_minmax l m r x : l < m -> m < r -> hat l m r x = Rmax 0 (Rmin ((x - l) / (m - l)) ((r - x) / (r - m))).
Proof.
  intros H1 H2. assert (P1 : 0 < / (m - l)) by (apply Rinv_0_lt_compat; lra). assert (P2 : 0 < / (r - m)) by (apply Rinv_0_lt_compat; lra).
  assert (E1 : (m - l) * / (m - l) = 1) by (field; lra). assert (E2 : (r - m) * / (r - m) = 1) by (field; lra).
  unfold hat, Rdiv. set (u := / (m - l)) in *. set (v := / (r - m)) in *.
  destruct (Rle_dec x l); [|destruct (Rle_dec x m); [|destruct (Rle_dec x r)]].
  - symmetry. apply Rmax_left. eapply Rle_trans; [apply Rmin_l|]. nra.
  - rewrite Rmin_left by nra. symmetry. apply Rmax_right. nra.
  - rewrite Rmin_right by nra. symmetry. apply Rmax_right. nra.
  - symmetry. apply Rmax_left. eapply Rle_trans; [apply Rmin_r|]. nra.
Qed.
Lemma rmin_cont (f g : R -> R) : (forall x, continuous f x) -> (forall x, continuous g x) -> forall x, continuous (fun x => Rmin (f x) (g x)) x.
Proof.
  intros Cf Cg x. apply (cext (fun x => (f x + g x + -1 * Rabs (f x + -1 * g x)) * / 2)).
  - intros y. unfold Rmin, Rabs. destruct (Rle_dec (f y) (g y)), (Rcase_abs (f y + -1 * g y)); lra.
  - apply ProjProps.cmul; [|apply cconst]. apply cplus; [now apply cplus|]. apply ProjProps.cmul; [apply cconst|].
    apply (continuous_comp (fun x => f x + -1 * g x) Rabs); [|apply continuous_Rabs]. apply cplus; [apply Cf|]. apply ProjProps.cmul; [apply cconst|apply Cg].
Qed.
Lemma rmax0_cont (f : R -> R) : (forall x, continuous f x) -> forall x, continuous (fun x => Rmax 0 (f x)) x.
Proof. intros Cf x. apply (continuous_comp f (Rmax 0)); [apply Cf|apply cmax]. Qed.
Lemma aff_cont c d : forall x : R, continuous (fun x => c * x + d) x.
Proof. intros x. apply cplus; [|apply cconst]. apply ProjProps.cmul; [apply cconst|apply continuous_id]. Qed.
Lemma hat_cont l m r : l < m -> m < r -> forall x, continuous (hat l m r) x.
Proof.
  intros H1 H2 x. apply (cext (fun x => Rmax 0 (Rmin (/ (m - l) * x + - l * / (m - l)) (- / (r - m) * x + r * / (r - m))))).
  - intros y. rewrite hat_minmax by assumption. f_equal. f_equal; unfold Rdiv; ring.
  - apply rmax0_cont, rmin_cont; apply aff_cont.
Qed.
Lemma sum_cont n (f : nat -> R -> R) : (forall i, (i < n)%nat -> forall x, continuous (f i) x) -> forall x, continuous (fun x => sum_upto n (fun i => f i x)) x.
Proof.
  induction n as [|n IH]; intros H x.
  - apply (cext (fun _ => 0)); [reflexivity|apply cconst].
  - apply (cext (fun x => sum_upto n (fun i => f i x) + f n x)); [intros y; symmetry; apply sum_upto_S|]. apply cplus; [apply IH; intros i Hi; apply H; lia|apply H; lia].
Qed.

Section Fem.
Variables (grid : list R) (zb : bool) (b : basis) (nz : bool).
Hypothesis Hinc : increasing grid.
Hypothesis Hb : basis_init grid zb = Ok b.
Let lo := left_end grid.
Let hi := right_end grid.
Let n := b_len b.
Lemma lo_hi : lo <= hi.
Proof.
  destruct (init_facts grid zb b Hinc Hb) as (_ & _ & _ & _ & G3 & _). unfold lo, hi, left_end, right_end. left. apply Hinc. lia.
Qed.
(** The element as a continuous function that agrees with it on the domain. *)
Definition elem_fun (i : nat) : R -> R := hat (at_ (b_grid b) i) (at_ (b_grid b) (i + 1)) (at_ (b_grid b) (i + 2)).
Lemma elem_cont i : (i < n)%nat -> forall x, continuous (elem_fun i) x.
Proof.
  intros Hi. destruct (init_facts grid zb b Hinc Hb) as (A & B & _). apply hat_cont; apply A; unfold n, b_len in Hi; lia.
Qed.
Lemma elem_in i x : (i < n)%nat -> lo <= x <= hi -> basis_eval b x i = elem_fun i x.
Proof.
  intros Hi Hx. destruct (init_facts grid zb b Hinc Hb) as (A & B & Z & L & G3 & N2 & D & D1 & D2).
  apply (basis_eval_in b A B x i Hi). intros _. rewrite D1, D2. exact Hx.
Qed.
(** Right-hand sides of functions that are continuous on the domain. *)
Lemma rhs_ok (f g : R -> R) : (forall t, lo <= t <= hi -> f t = g t) -> (forall t, continuous g t) ->
  quad_rhs b f (fun i => RInt (fun t => elem_fun i t * g t) lo hi).
Proof.
  intros E Cg i Hi. destruct (init_facts grid zb b Hinc Hb) as (A & B & Z & L & G3 & N2 & D & D1 & D2).
  destruct (C08_support grid zb b Hinc Hb (Z.of_nat i) i Hi (or_introl eq_refl)) as (l & u & S & _).
  exists l, u. split; [exact S|].
  assert (I : is_RInt (fun t => basis_eval b t i * f t) lo hi (RInt (fun t => elem_fun i t * g t) lo hi)).
  { apply (@is_RInt_ext R_NormedModule (fun t => elem_fun i t * g t)).
    - intros t Ht. pose proof lo_hi. rewrite Rmin_left, Rmax_right in Ht by assumption. rewrite (elem_in i t Hi) by lra. rewrite E by lra. reflexivity.
    - apply (@RInt_correct R_CompleteNormedModule). apply cont_int. apply PsdIntegral.cmul; [now apply elem_cont|exact Cg]. }
  apply (@is_RInt_ext R_NormedModule) with (2 := to_support grid zb b f i _ l u Hinc Hb Hi S I).
  intros t _. now rewrite (eval_elem_ok b A B (Z.of_nat i) i t Hi (or_introl eq_refl)).
Qed.
Variable V : nat -> nat -> R.
Hypothesis HV : forall res, normalizer_gives b nz res (fun i => sum_upto n (fun j => V i j * res j)).
Definition weight (i : nat) (t : R) : R := sum_upto n (fun j => V i j * elem_fun j t).
Lemma weight_cont i : forall t, continuous (weight i) t.
Proof. apply sum_cont. intros j Hj x. apply ProjProps.cmul; [apply cconst|now apply elem_cont]. Qed.
Lemma weight_int i (g : R -> R) : (forall t, continuous g t) ->
  RInt (fun t => weight i t * g t) lo hi = sum_upto n (fun j => V i j * RInt (fun t => elem_fun j t * g t) lo hi).
Proof.
  intros Cg. apply is_RInt_unique.
  apply (@is_RInt_ext R_NormedModule (fun t => sum_upto n (fun j => V i j * (elem_fun j t * g t)))).
  - intros t _. unfold weight. rewrite (Rmult_comm (sum_upto _ _)), <- sum_upto_scal. apply sum_upto_ext. intros. ring.
  - apply is_RInt_sum. intros j Hj. apply (@is_RInt_scal R_NormedModule). apply (@RInt_correct R_CompleteNormedModule). apply cont_int. apply PsdIntegral.cmul; [now apply elem_cont|exact Cg].
Qed.
Lemma coefficients (f g : R -> R) w res : (forall t, lo <= t <= hi -> f t = g t) -> (forall t, continuous g t) ->
  quad_rhs b f res -> normalizer_gives b nz res w -> forall i, (i < n)%nat -> w i = RInt (fun t => weight i t * g t) lo hi.
Proof.
  intros E Cg Q W i Hi.
  assert (R : forall j, (j < n)%nat -> res j = RInt (fun t => elem_fun j t * g t) lo hi).
  { intros j Hj. pose proof (c09_quad grid zb b Hinc Hb f res Q j Hj) as H1.
    pose proof (c09_quad grid zb b Hinc Hb f _ (rhs_ok f g E Cg) j Hj) as H2. rewrite <- (is_RInt_unique _ _ _ _ H1). now apply is_RInt_unique. }
  rewrite (normalizer_unique grid zb b Hinc Hb nz res w _ W (HV res) i Hi). rewrite weight_int by exact Cg. apply sum_upto_ext. intros j Hj. now rewrite R.
Qed.

Variable P : projection RF.
Hypothesis HP : is_fem_projection b nz P.
(** Functions that agree on the domain with a continuous function. *)
Definition cont_between (f : point RF -> RF) : Prop := exists g : R -> R, (forall t, continuous g t) /\ forall t, lo <= t <= hi -> f (fun _ => t) = g t.
Lemma fem_value f g : (forall t, continuous g t) -> (forall t, lo <= t <= hi -> f (fun _ => t) = g t) ->
  forall i, (i < n)%nat -> pj_fun P f i = RInt (fun t => weight i t * g t) lo hi.
Proof.
  intros Cg E i Hi. destruct HP as (_ & _ & _ & _ & HQ). exact (coefficients _ g _ _ E Cg (rhs_ok _ g E Cg) (HQ f _ (rhs_ok _ g E Cg)) i Hi).
Qed.
Lemma fem_linear : @linear_on RF _ cont_between (pj_n P) (pj_fun P).
Proof.
  assert (EN : pj_n P = n) by apply HP. rewrite EN. intros l. induction l as [|[c f] l IH]; intros h HD E.
  - assert (Z : forall t, lo <= t <= hi -> h (fun _ => t) = (fun _ : R => 0) t) by (intros t _; apply E).
    split; [exists (fun _ => 0); split; [intros; apply cconst|exact Z]|]. intros i Hi. rewrite (fem_value h (fun _ => 0) (cconst 0) Z i Hi).
    rewrite (RInt_ext _ (fun _ => 0)) by (intros; apply Rmult_0_r). rewrite rint_const. apply Rmult_0_r.
  - set (h' := fun x => @fsum RF (map (fun p => fst p * snd p x) l)).
    destruct (IH h') as [[g' [Cg' Eg']] IH']; [intros p Hp; apply HD; now right|reflexivity|]. destruct (HD (c, f) (or_introl eq_refl)) as [g [Cg Eg]]. cbn [snd] in Eg.
    assert (C : forall t, continuous (fun t => c * g t + g' t) t) by (intros t; apply cplus; [apply ProjProps.cmul; [apply cconst|apply Cg]|apply Cg']).
    assert (Eh : forall t, lo <= t <= hi -> h (fun _ => t) = (fun t => c * g t + g' t) t).
    { intros t Ht. rewrite E. cbn [map fst snd]. rewrite <- Eg, <- Eg' by exact Ht. reflexivity. }
    split; [exists (fun t => c * g t + g' t); split; assumption|]. intros i Hi. rewrite (fem_value h _ C Eh i Hi).
    cbn [map fst snd]. change (@fsum RF (?a :: ?r)) with (a + @fsum RF r). rewrite <- (IH' i Hi). cbn [fmul RF].
    rewrite (fem_value f g Cg Eg i Hi), (fem_value h' g' Cg' Eg' i Hi). apply is_RInt_unique.
    apply (@is_RInt_ext R_NormedModule (fun t => c * (weight i t * g t) + weight i t * g' t)); [intros; match goal with |- @eq _ ?a ?b => change (@eq R a b) end; ring|].
    apply (@is_RInt_plus R_NormedModule).
    + apply (@is_RInt_scal R_NormedModule). apply (@RInt_correct R_CompleteNormedModule). apply cont_int. apply PsdIntegral.cmul; [apply weight_cont|exact Cg].
    + apply (@RInt_correct R_CompleteNormedModule). apply cont_int. apply PsdIntegral.cmul; [apply weight_cont|exact Cg'].
Qed.

(** A kernel on the line. *)
Variable k : R -> R -> R.
Hypothesis Ck : cont2 k.
Definition on_points (p q : point RF) : RF := k (p []) (q []).
Lemma fem_kP x j : (j < n)%nat -> pj_fun P (on_points x) j = obs_cov k (At (x [])) (Int (weight j) lo hi).
Proof. intros Hj. unfold obs_cov, obs_val. apply (fem_value _ (k (x []))); [now apply cont2_right|reflexivity|exact Hj]. Qed.
Lemma weighted_cont j : cont2 (fun x t => weight j t * k x t).
Proof. apply cont2_mult; [apply cont2_snd, weight_cont|exact Ck]. Qed.
Lemma fem_kP_cont j : (j < n)%nat -> cont_between (fun x => pj_fun P (on_points x) j).
Proof.
  intros Hj. exists (fun x => RInt (fun t => weight j t * k x t) lo hi). split; [apply (inner_cont _ lo hi lo_hi), weighted_cont|].
  intros t _. exact (fem_kP (fun _ => t) j Hj).
Qed.
Lemma fem_PkP i j : (i < n)%nat -> (j < n)%nat ->
  pj_fun P (fun x => pj_fun P (on_points x) j) i = obs_cov k (Int (weight i) lo hi) (Int (weight j) lo hi).
Proof.
  intros Hi Hj. unfold obs_cov, obs_val. apply (fem_value _ (fun x => RInt (fun t => weight j t * k x t) lo hi)); [apply (inner_cont _ lo hi lo_hi), weighted_cont| |exact Hi].
  intros t _. exact (fem_kP (fun _ => t) j Hj).
Qed.
Lemma weight_obs i : obs_ok (Int (weight i) lo hi).
Proof. split; [apply lo_hi|apply weight_cont]. Qed.
Lemma fem_sym : (forall x y, k x y = k y x) -> forall i j, (i < n)%nat -> (j < n)%nat ->
  pj_fun P (fun x => pj_fun P (on_points x) j) i = pj_fun P (fun x => pj_fun P (on_points x) i) j.
Proof. intros S i j Hi Hj. rewrite !fem_PkP by assumption. apply obs_sym; try assumption; apply weight_obs. Qed.
Lemma fem_admissible : (forall x y, k x y = k y x) -> admissible [] on_points P cont_between.
Proof.
  intros S. destruct HP as (E1 & E2 & E3 & _). split.
  - rewrite E1, E2, E3. repeat split.
  - exact fem_linear.
  - intros x y. apply S.
  - intros x. exists (k (x [])). split; [now apply cont2_right|reflexivity].
  - intros j Hj. apply fem_kP_cont. rewrite E2 in Hj. exact Hj.
Qed.
(** Every combination of values and coefficients has a non-negative variance. *)
Lemma fem_joint : (forall x y, k x y = k y x) -> psd_kernel (k : R -> R -> RF) -> forall l d,
  0 <= joint_variance (pj_n P) on_points (fun x j => pj_fun P (on_points x) j) (fun i j => pj_fun P (fun x => pj_fun P (on_points x) j) i) l d.
Proof.
  intros S Pk l d. assert (EN : pj_n P = n) by apply HP. rewrite EN.
  set (ok := fun o o' : {o : obs | obs_ok o} => obs_cov k (proj1_sig o) (proj1_sig o') : RF).
  set (t := fun i => exist obs_ok (Int (weight i) lo hi) (weight_obs i)).
  set (pto := fun x : point RF => exist obs_ok (At (x [])) Logic.I).
  pose proof (joint_interpolation n ok t (map (fun p => (fst p, pto (snd p))) l) d) as J.
  assert (J' : 0 <= joint_variance n ok (fun x j => ok x (t j)) (fun i j => ok (t i) (t j)) (map (fun p => (fst p, pto (snd p))) l) d).
  { apply J; [|now apply obs_psd]. intros [o Ho] [o' Ho']. unfold ok. cbn. now apply obs_sym. }
  clear J. match type of J' with 0 <= ?a => match goal with |- 0 <= ?b => replace b with a; [exact J'|] end end.
  unfold joint_variance. f_equal; [f_equal; [|f_equal]|].
  - rewrite map_map. apply (sum_ext (F := RF)). intros p _. rewrite map_map. reflexivity.
  - rewrite map_map. apply (sum_ext (F := RF)). intros p _. cbn [fst snd]. f_equal. apply (dot_ext (F := RF)); [|reflexivity]. intros j Hj. symmetry. exact (fem_kP (snd p) j Hj).
  - apply (bilinear_ext (F := RF)); try reflexivity. intros i j Hi Hj. symmetry. now apply fem_PkP.
Qed.
End Fem.

(** Normalised projections reproduce the basis. *)
Lemma fem_reproduces grid zb b P : increasing grid -> basis_init grid zb = Ok b -> is_fem_projection b true P -> basis_reproduced P (cont_between grid).
Proof.
  intros Hinc Hb HP. destruct (normalizer_matrix grid zb b Hinc Hb true) as [V HV]. destruct HP as (E1 & E2 & E3 & E4 & HQ).
  assert (EB : forall j, (j < b_len b)%nat -> forall t, left_end grid <= t <= right_end grid -> phi P (fun _ => t) j = elem_fun b j t).
  { intros j Hj t Ht. unfold phi. rewrite E3. cbn [ft_val fem_feature nth]. now apply (elem_in grid zb b Hinc Hb). }
  split.
  - intros i j Hi Hj. rewrite E2 in Hi, Hj.
    pose proof (rhs_ok grid zb b Hinc Hb (fun t => phi P (fun _ => t) j) (elem_fun b j) (EB j Hj) (elem_cont grid zb b Hinc Hb j Hj)) as Q.
    pose proof (HQ (fun x => phi P x j) _ Q) as W.
    apply (c09_unique grid zb b Hinc Hb _ _ (fun i => if (i =? j)%nat then 1 else 0) W); [|exact Hi].
    intros r Hr. assert (H3 : (3 <= length (b_grid b))%nat) by (apply (init_facts grid zb b Hinc Hb)).
    change (sum_upto (b_len b) (fun s => mass_matrix b r s * (if (s =? j)%nat then 1 else 0)) = RInt (fun t => elem_fun b r t * elem_fun b j t) (left_end grid) (right_end grid)).
    rewrite (sum_upto_one b H3 (b_len b) _ j Hj) by (intros s Hs Hne; destruct (Nat.eqb_spec s j); [congruence|ring]). rewrite Nat.eqb_refl, Rmult_1_r.
    symmetry. apply is_RInt_unique. apply (@is_RInt_ext R_NormedModule) with (2 := c09_mass grid zb b Hinc Hb r j Hr Hj). intros t Ht.
    pose proof (lo_hi grid zb b Hinc Hb) as LH. unfold left_end, right_end in LH. rewrite Rmin_left, Rmax_right in Ht by exact LH.
    rewrite !(elem_in grid zb b Hinc Hb); try assumption; try reflexivity; unfold left_end, right_end; lra.
  - intros j Hj. rewrite E2 in Hj. exists (elem_fun b j). split; [now apply (elem_cont grid zb b Hinc Hb)|exact (EB j Hj)].
Qed.
