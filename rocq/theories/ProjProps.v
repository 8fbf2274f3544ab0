(** Property theorem C40, and the existence of the normalised projection (C09). *)
From Coq Require Import List Reals Lra Lia Bool Arith ZArith.
From Coquelicot Require Import Coquelicot.
From Verif Require Import Base NdArray PiecewiseSpec FemModel FemSpec FemProofs FemIntegral FemProps.
From Verif Require Import FunExprModel LfoModel KernelModel KernelSpec IntegralModel IntegralSpec IntegralProofs IntegralProps ProjModel ProjSpec ProjProofs.
Import ListNotations.
Open Scope R_scope.

(** The normalised projection exists for every right-hand side. *)
Theorem C09_normaliser_exists : forall grid zb b, increasing grid -> basis_init grid zb = Ok b ->
  forall nz res, exists w, normalizer_gives b nz res w.
Proof. exact normalizer_total. Qed.
Print Assumptions C09_normaliser_exists.

(** ** Projections are linear *)
Section Linear.
Variables (n : nat) (phi : nat -> R -> R) (lo hi : R) (nz : bool).
Lemma proj_scale s f w : l2_projection n phi lo hi nz f w -> l2_projection n phi lo hi nz (fun x => s * f x) (fun i => s * w i).
Proof.
  intros H i Hi. specialize (H i Hi). destruct nz.
  - eapply is_RInt_eq; [|eapply (@is_RInt_ext R_NormedModule); [|exact (@is_RInt_scal R_NormedModule _ _ _ s _ H)]].
    + unfold scal. cbn. unfold mult. cbn. ring.
    + intros x _. unfold scal. cbn. unfold mult. cbn. replace (sum_upto n (fun j => s * w j * phi j x)) with (s * sum_upto n (fun j => w j * phi j x)).
      * match goal with |- @eq _ ?a ?b => change (@eq R a b) end. ring.
      * rewrite <- sum_upto_scal. apply sum_upto_ext. intros. ring.
  - eapply (@is_RInt_ext R_NormedModule); [|exact (@is_RInt_scal R_NormedModule _ _ _ s _ H)].
    intros x _. unfold scal. cbn. unfold mult. cbn. match goal with |- @eq _ ?a ?b => change (@eq R a b) end. ring.
Qed.
Lemma proj_plus f g w v : l2_projection n phi lo hi nz f w -> l2_projection n phi lo hi nz g v -> l2_projection n phi lo hi nz (fun x => f x + g x) (fun i => w i + v i).
Proof.
  intros H1 H2 i Hi. specialize (H1 i Hi). specialize (H2 i Hi). destruct nz.
  - eapply is_RInt_eq; [|eapply (@is_RInt_ext R_NormedModule); [|exact (@is_RInt_plus R_NormedModule _ _ _ _ _ _ H1 H2)]].
    + unfold plus. cbn. ring.
    + intros x _. unfold plus. cbn. replace (sum_upto n (fun j => (w j + v j) * phi j x)) with (sum_upto n (fun j => w j * phi j x) + sum_upto n (fun j => v j * phi j x)).
      * match goal with |- @eq _ ?a ?b => change (@eq R a b) end. ring.
      * rewrite <- sum_upto_plus. apply sum_upto_ext. intros. ring.
  - eapply (@is_RInt_ext R_NormedModule); [|exact (@is_RInt_plus R_NormedModule _ _ _ _ _ _ H1 H2)].
    intros x _. unfold plus. cbn. match goal with |- @eq _ ?a ?b => change (@eq R a b) end. ring.
Qed.
Lemma proj_ext f g w v : (forall x, f x = g x) -> (forall i, w i = v i) -> l2_projection n phi lo hi nz f w -> l2_projection n phi lo hi nz g v.
Proof.
  intros E E' H i Hi. specialize (H i Hi). destruct nz.
  - apply (@is_RInt_ext R_NormedModule) with (2 := H). intros x _. rewrite E. f_equal. f_equal. apply sum_upto_ext. intros. now rewrite E'.
  - rewrite <- E'. apply (@is_RInt_ext R_NormedModule) with (2 := H). intros x _. now rewrite E.
Qed.
End Linear.

Definition hats (b : basis) (i : nat) (x : R) : R := basis_eval b x i.
Definition left_end (grid : list R) : R := nth 0 grid 0.
Definition right_end (grid : list R) : R := nth (length grid - 1) grid 0.

(** ** The closed form *)
(** The projection of the Matérn-3/2 kernel onto the hat basis, for every evaluation point. *)
Theorem C40_matern32 : forall grid zb b nz m arg, increasing grid -> basis_init grid zb = Ok b ->
  mt_shape m = [] -> mt_nu m = HalfInt 1 -> 0 < mt_len m [] -> (arg < 2)%nat ->
  exists x, proj_cov (CMat m) (Proj b nz) arg = Ok x /\ p_reverse x = (arg =? 0)%nat /\
  forall t, (exists w, p_gives x t w) /\
  forall w, p_gives x t w -> l2_in arg (b_len b) (hats b) (left_end grid) (right_end grid) nz (matern_line 1 (mt_len m [])) t w.
Proof.
  intros grid zb b nz m arg Hinc Hb Hs Hn Hl Ha. cbn [proj_cov]. destruct (Nat.ltb_spec 1 arg); [lia|]. rewrite Hs, Hn. cbn.
  eexists. split; [reflexivity|]. split; [reflexivity|]. intros t. cbn [p_gives pr_basis pr_normalized]. split; [now apply (normalizer_total grid zb)|].
  intros w Hw. apply (proj_ext _ _ _ _ _ (matern_line 1 (mt_len m []) t) _ w w); [|reflexivity|].
  - intros u. destruct arg; [apply line_sym|reflexivity].
  - apply (project grid zb b Hinc Hb) with (2 := Hw). intros i Hi. now apply (m32_rhs_int grid zb).
Qed.
Print Assumptions C40_matern32.

(** Without normalisation there is exactly one value: the integral of the kernel times the
    hat function. *)
Theorem C40_matern32_value : forall grid zb b m t i, increasing grid -> basis_init grid zb = Ok b ->
  mt_shape m = [] -> mt_nu m = HalfInt 1 -> 0 < mt_len m [] -> (i < b_len b)%nat ->
  is_RInt (fun u => ceval (CMat m) (pt t) (pt u) * basis_eval b u i) (left_end grid) (right_end grid) (m32_rhs b (mt_len m []) t i).
Proof.
  intros grid zb b m t i Hinc Hb Hs Hn Hl Hi. pose proof (m32_rhs_int grid zb b (mt_len m []) t Hinc Hb Hl i Hi) as X.
  apply (@is_RInt_ext R_NormedModule) with (2 := X). intros u _. rewrite (eval_line m 1 t u Hs Hn Hl). apply Rmult_comm.
Qed.
Print Assumptions C40_matern32_value.

(** ** All kernels: quadrature, scaling and sums *)
Definition no_special (k : cov) : Prop :=
  match k with
  | CNotImpl | CScaled _ _ | CSum _ => False
  | CMat m => mt_nu m <> HalfInt 1
  | _ => True
  end.
(** Kernels that can be projected: Matérn-3/2, other kernels whose products with the basis
    functions are integrable (symmetric ones, if the first argument is projected), scaled
    kernels and sums. *)
Inductive projectable (b : basis) (arg : nat) : cov -> Prop :=
| RMat m : mt_shape m = [] -> mt_nu m = HalfInt 1 -> 0 < mt_len m [] -> projectable b arg (CMat m)
| ROther k : no_special k -> c_shape k = [] ->
    (forall t i l0 h0, (i < b_len b)%nat -> support_bounds b (Z.of_nat i) = Ok (l0, h0) -> ex_RInt (fun u => basis_eval b u i * line k t u) l0 h0) ->
    (arg = 0%nat -> forall x y, line k x y = line k y x) -> projectable b arg k
| RScaled s k : projectable b arg k -> projectable b arg (CScaled s k)
| RSum k ks : (forall k', In k' (k :: ks) -> projectable b arg k') -> projectable b arg (CSum (k :: ks)).

Lemma projectable_shape b arg k : projectable b arg k -> c_shape k = [].
Proof. induction 1 as [m H|k _ H| |k ks H IH]; try assumption. apply (IH k). now left. Qed.
Definition pgo (p : proj) (arg : nat) : list cov -> pcross -> result pcross :=
  fix go (ks : list cov) (acc : pcross) : result pcross :=
    match ks with
    | [] => Ok acc
    | k' :: ks' => bind (proj_cov k' p arg) (fun x => bind (p_add acc x) (fun s => go ks' s))
    end.
Lemma proj_other p arg k : (arg < 2)%nat -> no_special k -> c_shape k = [] -> proj_cov k p arg = Ok (PQuad k p (arg =? 0)%nat).
Proof.
  intros Ha Hn Hs. destruct k; cbn [proj_cov no_special c_shape] in *; try contradiction; (destruct (Nat.ltb_spec 1 arg); [lia|]);
    rewrite ?Hs; try reflexivity. destruct (mt_nu m) as [[|[|p']]|]; try reflexivity. contradiction.
Qed.
Lemma proj_sum p arg k ks : (arg < 2)%nat -> c_shape k = [] ->
  proj_cov (CSum (k :: ks)) p arg = bind (proj_cov k p arg) (pgo p arg ks).
Proof. intros Ha Hs. cbn [proj_cov]. destruct (Nat.ltb_spec 1 arg); [lia|]. rewrite Hs. reflexivity. Qed.
Lemma proj_scaled p arg s k : (arg < 2)%nat -> c_shape k = [] ->
  proj_cov (CScaled s k) p arg = bind (proj_cov k p arg) (fun x => Ok (PScaled s x)).
Proof. intros Ha Hs. cbn [proj_cov]. destruct (Nat.ltb_spec 1 arg); [lia|]. rewrite Hs. reflexivity. Qed.

Section PLift.
Variables (b : basis) (nz : bool) (arg : nat) (I : cov -> Prop) (Q : (R -> R -> R) -> pcross -> Prop).
Let p := Proj b nz.
Hypothesis Ha : (arg < 2)%nat.
Hypothesis Q_ext : forall f g x, (forall u v, f u v = g u v) -> Q f x -> Q g x.
Hypothesis Q_scale : forall s f x, Q f x -> Q (fun u v => s * f u v) (PScaled s x).
Hypothesis Q_add : forall f g x y, Q f x -> Q g y -> Q (fun u v => f u v + g u v) (PSum x y).
Hypothesis Q_mat : forall m, mt_shape m = [] -> mt_nu m = HalfInt 1 -> 0 < mt_len m [] -> Q (matern_line 1 (mt_len m [])) (PM32 m p (arg =? 0)%nat).
Hypothesis Q_other : forall k, I k -> no_special k -> c_shape k = [] ->
  (forall t i l0 h0, (i < b_len b)%nat -> support_bounds b (Z.of_nat i) = Ok (l0, h0) -> ex_RInt (fun u => basis_eval b u i * line k t u) l0 h0) ->
  (arg = 0%nat -> forall x y, line k x y = line k y x) -> Q (line k) (PQuad k p (arg =? 0)%nat).
Hypothesis I_scaled : forall s k, I (CScaled s k) -> I k.
Hypothesis I_sum : forall ks k, I (CSum ks) -> In k ks -> I k.
Lemma plift k : projectable b arg k -> I k -> exists x, proj_cov k p arg = Ok x /\ p_reverse x = (arg =? 0)%nat /\ Q (line k) x.
Proof.
  induction 1 as [m Hs Hn Hl|k Hn Hs He Hy|s k Hk IH|k ks Hks IH]; intros HI.
  - cbn [proj_cov]. destruct (Nat.ltb_spec 1 arg); [lia|]. rewrite Hs, Hn. cbn. eexists. split; [reflexivity|]. split; [reflexivity|].
    apply Q_ext with (2 := Q_mat m Hs Hn Hl). intros u v. symmetry. now apply eval_line.
  - rewrite proj_other by assumption. eexists. split; [reflexivity|]. split; [reflexivity|]. now apply Q_other.
  - destruct (IH (I_scaled _ _ HI)) as (x & E & R & HQ). rewrite proj_scaled, E by (assumption || now apply (projectable_shape _ _ _ Hk)).
    eexists. split; [reflexivity|]. split; [exact R|]. now apply Q_scale.
  - assert (Hall : forall k', In k' (k :: ks) -> exists x, proj_cov k' p arg = Ok x /\ p_reverse x = (arg =? 0)%nat /\ Q (line k') x).
    { intros k' H. apply IH; [exact H|]. now apply (I_sum _ _ HI). }
    assert (Hs : c_shape k = []) by (apply (projectable_shape b arg); apply Hks; now left).
    rewrite proj_sum by assumption. clear IH Hks Hs HI.
    destruct (Hall k (or_introl eq_refl)) as (x & E & R & HQ). rewrite E. cbn [bind].
    assert (G : forall f x, Q f x -> p_reverse x = (arg =? 0)%nat -> exists y, pgo p arg ks x = Ok y /\ p_reverse y = (arg =? 0)%nat
      /\ Q (fun u v => f u v + rsum (map (fun k => line k u v) ks)) y).
    { assert (H : forall k', In k' ks -> exists x, proj_cov k' p arg = Ok x /\ p_reverse x = (arg =? 0)%nat /\ Q (line k') x) by (intros k' H; apply Hall; now right).
      clear -H Q_ext Q_add. induction ks as [|k' ks IH]; intros f x HQ R.
      - exists x. split; [reflexivity|]. split; [exact R|]. apply Q_ext with (2 := HQ). intros u v. cbn. ring.
      - destruct (H k' (or_introl eq_refl)) as (x' & E & R' & HQ'). cbn [pgo]. rewrite E. cbn [bind]. unfold p_add. rewrite R, R', eqb_reflx. cbn [bind].
        destruct (IH (fun k H' => H k (or_intror H')) (fun u v => f u v + line k' u v) (PSum x x')) as (y & Ey & Ry & Qy); [now apply Q_add|exact R|].
        exists y. split; [exact Ey|]. split; [exact Ry|]. apply Q_ext with (2 := Qy). intros u v. cbn [map]. unfold rsum. cbn [fold_right]. ring. }
    destruct (G _ _ HQ R) as (y & Ey & Ry & Qy). exists y. split; [exact Ey|]. split; [exact Ry|]. apply Q_ext with (2 := Qy).
    intros u v. unfold line. cbn [ceval map]. unfold rsum. reflexivity.
Qed.
End PLift.

(** The projection of one argument of any such kernel. *)
Theorem C40_single : forall grid zb b nz k arg, increasing grid -> basis_init grid zb = Ok b -> (arg < 2)%nat ->
  projectable b arg k ->
  exists x, proj_cov k (Proj b nz) arg = Ok x /\ p_reverse x = (arg =? 0)%nat /\
  forall t, (exists w, p_gives x t w) /\
  forall w, p_gives x t w -> l2_in arg (b_len b) (hats b) (left_end grid) (right_end grid) nz (line k) t w.
Proof.
  intros grid zb b nz k arg Hinc Hb Ha HP.
  apply (plift b nz arg (fun _ => True)
    (fun f x => forall t, (exists w, p_gives x t w) /\ forall w, p_gives x t w -> l2_in arg (b_len b) (hats b) (left_end grid) (right_end grid) nz f t w)); try trivial.
  - intros f g x E H t. destruct (H t) as [H1 H2]. split; [exact H1|]. intros w Hw. eapply proj_ext; [|reflexivity|exact (H2 w Hw)]. intros u. destruct arg; apply E.
  - intros s f x H t. destruct (H t) as [[w H1] H2]. cbn [p_gives]. split.
    + exists (fun i => s * w i), w. now split.
    + intros v (w' & Hw & E). eapply proj_ext; [| |exact (proj_scale _ _ _ _ _ s _ _ (H2 w' Hw))]; [intros u; destruct arg; reflexivity|intros i; symmetry; apply E].
  - intros f g x y H H' t. destruct (H t) as [[w H1] H2]. destruct (H' t) as [[w' H1'] H2']. cbn [p_gives]. split.
    + exists (fun i => w i + w' i), w, w'. now split.
    + intros v (w1 & w2 & Hw1 & Hw2 & E). eapply proj_ext; [| |exact (proj_plus _ _ _ _ _ _ _ _ _ (H2 w1 Hw1) (H2' w2 Hw2))]; [intros u; destruct arg; reflexivity|intros i; symmetry; apply E].
  - intros m Hs Hn Hl t. destruct (C40_matern32 grid zb b nz m arg Hinc Hb Hs Hn Hl Ha) as (x & E & _ & H). cbn [proj_cov] in E.
    destruct (Nat.ltb_spec 1 arg); [lia|]. rewrite Hs, Hn in E. cbn in E. injection E as <-. apply H.
  - intros k' _ _ _ He Hy t. cbn [p_gives pr_basis pr_normalized]. split.
    + assert (B : forall i, (i < b_len b)%nat -> exists l0 h0 v, support_bounds b (Z.of_nat i) = Ok (l0, h0) /\ is_RInt (fun u => basis_eval b u i * line k' t u) l0 h0 v).
      { intros i Hi. destruct (C08_support grid zb b Hinc Hb (Z.of_nat i) i Hi (or_introl eq_refl)) as (l0 & h0 & E & _). destruct (He t i l0 h0 Hi E) as [v Hv]. now exists l0, h0, v. }
      assert (C : forall n, (n <= b_len b)%nat -> exists res, forall i, (i < n)%nat -> exists l0 h0, support_bounds b (Z.of_nat i) = Ok (l0, h0) /\ is_RInt (fun u => basis_eval b u i * line k' t u) l0 h0 (res i)).
      { induction n as [|n IH]; intros Hn; [exists (fun _ => 0); lia|]. destruct IH as [res Hr]; [lia|]. destruct (B n ltac:(lia)) as (l0 & h0 & v & E & Hv).
        exists (fun i => if (i =? n)%nat then v else res i). intros i Hi. destruct (Nat.eqb_spec i n) as [->|]; [now exists l0, h0|apply Hr; lia]. }
      destruct (C (b_len b) (le_n _)) as [res Hr]. destruct (normalizer_total grid zb b Hinc Hb nz res) as [w Hw]. exists w, res. split; [|exact Hw].
      intros i Hi. destruct (Hr i Hi) as (l0 & h0 & E & Hv). exists l0, h0. split; [exact E|]. apply (@is_RInt_ext R_NormedModule) with (2 := Hv).
      intros u _. now rewrite (C08_eval_elem grid zb b Hinc Hb (Z.of_nat i) i u Hi (or_introl eq_refl)).
    + intros w (res & Hq & Hw). apply (proj_ext _ _ _ _ _ (line k' t) _ w w); [|reflexivity|].
      * intros u. destruct arg; [now apply Hy|reflexivity].
      * apply (project grid zb b Hinc Hb) with (2 := Hw). intros i Hi. now apply (c09_quad grid zb b Hinc Hb).
Qed.
Print Assumptions C40_single.

(** ** Both arguments *)
Section Both.
Variables (g0 g1 : list R) (z0 z1 : bool) (b0 b1 : basis) (nz0 nz1 : bool).
Hypothesis I0 : increasing g0.
Hypothesis I1 : increasing g1.
Hypothesis B0 : basis_init g0 z0 = Ok b0.
Hypothesis B1 : basis_init g1 z1 = Ok b1.
Variable k : R -> R -> R.
Let n0 := b_len b0.
Let n1 := b_len b1.
Let lo0 := left_end g0.
Let hi0 := right_end g0.
Let lo1 := left_end g1.
Let hi1 := right_end g1.
(** The inner integrals exist. *)
Hypothesis Hex : forall x j, (j < n1)%nat -> ex_RInt (fun u => basis_eval b1 u j * k x u) lo1 hi1.
Definition inner (x : R) (j : nat) : R := RInt (fun u => basis_eval b1 u j * k x u) lo1 hi1.
Lemma inner_int x j : (j < n1)%nat -> is_RInt (fun u => basis_eval b1 u j * k x u) lo1 hi1 (inner x j).
Proof. intros Hj. apply (@RInt_correct R_CompleteNormedModule). now apply Hex. Qed.
Lemma dbl_domain res : dbl_rhs b0 b1 k res -> forall i j, (i < n0)%nat -> (j < n1)%nat ->
  is_RInt (fun x => basis_eval b0 x i * inner x j) lo0 hi0 (res i j).
Proof.
  intros H i j Hi Hj. destruct (H i j Hi Hj) as (l0 & h0 & l1 & h1 & f & S0 & S1 & Hin & Hout).
  assert (F : forall x, f x = basis_eval b0 x i * inner x j).
  { intros x. specialize (Hin x).
    assert (X : is_RInt (fun u => basis_eval b1 u j * (basis_eval b0 x i * k x u)) lo1 hi1 (f x)).
    { apply (support_domain g1 z1 b1 I1 B1 (fun u => basis_eval b0 x i * k x u) j l1 h1 (f x) Hj S1).
      apply (@is_RInt_ext R_NormedModule) with (2 := Hin). intros u _. rewrite (elem_eval g0 z0 b0 I0 B0 i x Hi), (elem_eval g1 z1 b1 I1 B1 j u Hj).
      match goal with |- @eq _ ?a ?b => change (@eq R a b) end. ring. }
    assert (Y : is_RInt (fun u => basis_eval b1 u j * (basis_eval b0 x i * k x u)) lo1 hi1 (basis_eval b0 x i * inner x j)).
    { apply (@is_RInt_ext R_NormedModule) with (2 := @is_RInt_scal R_NormedModule _ _ _ (basis_eval b0 x i) _ (inner_int x j Hj)).
      intros u _. unfold scal. cbn. unfold mult. cbn. match goal with |- @eq _ ?a ?b => change (@eq R a b) end. ring. }
    rewrite <- (is_RInt_unique _ _ _ _ X), <- (is_RInt_unique _ _ _ _ Y). reflexivity. }
  apply (support_domain g0 z0 b0 I0 B0 (fun x => inner x j) i l0 h0 (res i j) Hi S0).
  apply (@is_RInt_ext R_NormedModule) with (2 := Hout). intros x _. apply F.
Qed.
Lemma both_leaf res res1 w : dbl_rhs b0 b1 k res ->
  (forall i, (i < n0)%nat -> normalizer_gives b1 nz1 (res i) (res1 i)) ->
  (forall j, (j < n1)%nat -> normalizer_gives b0 nz0 (fun i => res1 i j) (fun i => w i j)) ->
  l2_both n0 n1 (hats b0) (hats b1) lo0 hi0 lo1 hi1 nz0 nz1 k w.
Proof.
  intros Hd H1 H0. destruct (normalizer_matrix g1 z1 b1 I1 B1 nz1) as [V HV].
  exists (fun x i => sum_upto n1 (fun j => V i j * inner x j)). split.
  - intros x. apply (project g1 z1 b1 I1 B1 nz1 (k x) (inner x)); [|apply HV]. intros i Hi. now apply inner_int.
  - intros j Hj. apply (project g0 z0 b0 I0 B0 nz0 _ (fun i => res1 i j)); [|now apply H0]. intros i Hi.
    rewrite (normalizer_unique g1 z1 b1 I1 B1 nz1 (res i) _ _ (H1 i Hi) (HV (res i)) j Hj).
    assert (X : is_RInt (fun x => sum_upto n1 (fun j' => V j j' * (basis_eval b0 x i * inner x j'))) lo0 hi0 (sum_upto n1 (fun j' => V j j' * res i j'))).
    { apply is_RInt_sum. intros j' Hj'. apply (@is_RInt_scal R_NormedModule). now apply dbl_domain. }
    apply (@is_RInt_ext R_NormedModule) with (2 := X). intros x _. rewrite <- sum_upto_scal. apply sum_upto_ext. intros. ring.
Qed.
End Both.

(** Kernels all of whose inner integrals exist. *)
Inductive inner_ok (b1 : basis) (lo1 hi1 : R) : cov -> Prop :=
| NLeaf k : (forall s k', k <> CScaled s k') -> (forall ks, k <> CSum ks) ->
    (forall x j, (j < b_len b1)%nat -> ex_RInt (fun u => basis_eval b1 u j * line k x u) lo1 hi1) -> inner_ok b1 lo1 hi1 k
| NScaled s k : inner_ok b1 lo1 hi1 k -> inner_ok b1 lo1 hi1 (CScaled s k)
| NSum ks : (forall k, In k ks -> inner_ok b1 lo1 hi1 k) -> inner_ok b1 lo1 hi1 (CSum ks).
Lemma m32_inner grid zb b m : increasing grid -> basis_init grid zb = Ok b -> mt_shape m = [] -> mt_nu m = HalfInt 1 -> 0 < mt_len m [] ->
  forall x j, (j < b_len b)%nat -> ex_RInt (fun u => basis_eval b u j * matern_line 1 (mt_len m []) x u) (left_end grid) (right_end grid).
Proof. intros Hinc Hb Hs Hn Hl x j Hj. eexists. now apply (m32_rhs_int grid zb b (mt_len m []) x Hinc Hb Hl j Hj). Qed.

Lemma both_scale n0 n1 p0 p1 a b c d z0 z1 s f w : l2_both n0 n1 p0 p1 a b c d z0 z1 f w -> l2_both n0 n1 p0 p1 a b c d z0 z1 (fun x y => s * f x y) (fun i j => s * w i j).
Proof.
  intros (g & H1 & H2). exists (fun x i => s * g x i). split.
  - intros x. exact (proj_scale _ _ _ _ _ s _ _ (H1 x)).
  - intros j Hj. exact (proj_scale _ _ _ _ _ s _ _ (H2 j Hj)).
Qed.
Lemma both_plus n0 n1 p0 p1 a b c d z0 z1 f g w v : l2_both n0 n1 p0 p1 a b c d z0 z1 f w -> l2_both n0 n1 p0 p1 a b c d z0 z1 g v ->
  l2_both n0 n1 p0 p1 a b c d z0 z1 (fun x y => f x y + g x y) (fun i j => w i j + v i j).
Proof.
  intros (f' & H1 & H2) (g' & H3 & H4). exists (fun x i => f' x i + g' x i). split.
  - intros x. exact (proj_plus _ _ _ _ _ _ _ _ _ (H1 x) (H3 x)).
  - intros j Hj. exact (proj_plus _ _ _ _ _ _ _ _ _ (H2 j Hj) (H4 j Hj)).
Qed.
Lemma both_ext n0 n1 p0 p1 a b c d z0 z1 f g w v : (forall x y, f x y = g x y) -> (forall i j, w i j = v i j) ->
  l2_both n0 n1 p0 p1 a b c d z0 z1 f w -> l2_both n0 n1 p0 p1 a b c d z0 z1 g v.
Proof.
  intros E E' (f' & H1 & H2). exists f'. split.
  - intros x. apply (proj_ext _ _ _ _ _ (f x) _ (f' x) (f' x)); [apply E|reflexivity|apply H1].
  - intros j Hj. eapply proj_ext; [reflexivity| |exact (H2 j Hj)]. intros i. apply E'.
Qed.

(** Projecting the remaining argument with a second projection; [arg] is the argument
    projected first.  The entries are those of the iterated projection. *)
Theorem C40_double : forall grid grid' zb zb' b b' nz nz' k arg, increasing grid -> increasing grid' ->
  basis_init grid zb = Ok b -> basis_init grid' zb' = Ok b' -> (arg < 2)%nat ->
  projectable b arg k ->
  match arg with O => inner_ok b' (left_end grid') (right_end grid') k | _ => inner_ok b (left_end grid) (right_end grid) k end ->
  exists x, proj_cov k (Proj b nz) arg = Ok x /\
  forall w, p_double (Proj b' nz') x w ->
  match arg with
  | O => l2_both (b_len b) (b_len b') (hats b) (hats b') (left_end grid) (right_end grid) (left_end grid') (right_end grid') nz nz' (line k) w
  | _ => l2_both (b_len b') (b_len b) (hats b') (hats b) (left_end grid') (right_end grid') (left_end grid) (right_end grid) nz' nz (line k) w
  end.
Proof.
  intros grid grid' zb zb' b b' nz nz' k arg Hinc Hinc' Hb Hb' Ha HP HI.
  set (J := fun k => match arg with O => inner_ok b' (left_end grid') (right_end grid') k | _ => inner_ok b (left_end grid) (right_end grid) k end) in *.
  destruct (plift b nz arg J (fun f x => forall w, p_double (Proj b' nz') x w ->
    match arg with
    | O => l2_both (b_len b) (b_len b') (hats b) (hats b') (left_end grid) (right_end grid) (left_end grid') (right_end grid') nz nz' f w
    | _ => l2_both (b_len b') (b_len b) (hats b') (hats b) (left_end grid') (right_end grid') (left_end grid) (right_end grid) nz' nz f w
    end)) with (k := k) as (x & E & _ & H); try assumption.
  - intros f g x E H w Hw. specialize (H w Hw). destruct arg; (eapply both_ext; [exact E|reflexivity|exact H]).
  - intros s f x H w (w' & Hw & E). specialize (H w' Hw). destruct arg; (eapply both_ext; [reflexivity|intros i j; symmetry; apply E|apply both_scale, H]).
  - intros f g x y H H' w (w1 & w2 & Hw1 & Hw2 & E). specialize (H w1 Hw1). specialize (H' w2 Hw2).
    destruct arg; (eapply both_ext; [reflexivity|intros i j; symmetry; apply E|apply both_plus; eassumption]).
  - intros m Hs Hn Hl w Hw. cbn [p_double] in Hw. unfold double_leaf in Hw.
    destruct arg as [|arg]; cbn [Nat.eqb pr_basis pr_normalized] in Hw; destruct Hw as (res & res1 & Hd & H1 & H0).
    + eapply both_ext; [|reflexivity|apply (both_leaf grid grid' zb zb' b b' nz nz' Hinc Hinc' Hb Hb' (line (CMat m))) with (2 := Hd) (3 := H1) (4 := H0)].
      * intros x y. now apply eval_line.
      * intros x j Hj. apply (@ex_RInt_ext R_NormedModule) with (2 := m32_inner grid' zb' b' m Hinc' Hb' Hs Hn Hl x j Hj). intros u _. f_equal. symmetry. now apply eval_line.
    + eapply both_ext; [|reflexivity|apply (both_leaf grid' grid zb' zb b' b nz' nz Hinc' Hinc Hb' Hb (line (CMat m))) with (2 := Hd) (3 := H1) (4 := H0)].
      * intros x y. now apply eval_line.
      * intros x j Hj. apply (@ex_RInt_ext R_NormedModule) with (2 := m32_inner grid zb b m Hinc Hb Hs Hn Hl x j Hj). intros u _. f_equal. symmetry. now apply eval_line.
  - intros k' HJ Hn _ _ _ w Hw. cbn [p_double] in Hw. unfold double_leaf in Hw. unfold J in HJ.
    destruct arg as [|arg]; cbn [Nat.eqb pr_basis pr_normalized] in Hw; destruct Hw as (res & res1 & Hd & H1 & H0);
      (destruct HJ as [k' _ _ Hex| |]; [|contradiction|contradiction]).
    + exact (both_leaf grid grid' zb zb' b b' nz nz' Hinc Hinc' Hb Hb' (line k') Hex res res1 w Hd H1 H0).
    + exact (both_leaf grid' grid zb' zb b' b nz' nz Hinc' Hinc Hb' Hb (line k') Hex res res1 w Hd H1 H0).
  - unfold J. intros s k' H. destruct arg; (inversion H as [? X| |]; subst; [exfalso; now apply (X s k')|assumption]).
  - unfold J. intros ks k' H Hin. destruct arg; (inversion H as [? _ X| |]; subst; [exfalso; now apply (X ks)|auto]).
  - now exists x.
Qed.
Print Assumptions C40_double.

(** For the Matérn-3/2 kernel the double projection always exists. *)
Lemma cmul (f g : R -> R) (x : R) : continuous f x -> continuous g x -> continuous (fun x => f x * g x) x.
Proof. exact (@continuous_mult R_UniformSpace R_AbsRing f g x). Qed.
Lemma cplus (f g : R -> R) (x : R) : continuous f x -> continuous g x -> continuous (fun x => f x + g x) x.
Proof. exact (@continuous_plus R_UniformSpace R_AbsRing R_NormedModule f g x). Qed.
Lemma cconst (c x : R) : continuous (fun _ : R => c) x.
Proof. apply continuous_const. Qed.
Lemma cext (f g : R -> R) (x : R) : (forall y, f y = g y) -> continuous f x -> continuous g x.
Proof. apply continuous_ext. Qed.
Lemma cmax p (x : R) : continuous (fun x => Rmax p x) x.
Proof.
  apply (cext (fun x => (p + x + Rabs (p + - x)) * / 2)).
  - intros y. unfold Rmax, Rabs. destruct (Rle_dec p y), (Rcase_abs (p + - y)); lra.
  - apply cmul; [|apply cconst]. apply cplus; [apply cplus; [apply cconst|apply continuous_id]|].
    apply (continuous_comp (fun x => p + - x) Rabs); [|apply continuous_Rabs].
    apply cplus; [apply cconst|]. apply (@continuous_opp R_UniformSpace R_AbsRing R_NormedModule), continuous_id.
Qed.
Lemma cmin p (x : R) : continuous (fun x => Rmin p x) x.
Proof.
  apply (cext (fun x => p + x + -1 * Rmax p x)).
  - intros y. unfold Rmax, Rmin. destruct (Rle_dec p y); lra.
  - apply cplus; [apply cplus; [apply cconst|apply continuous_id]|]. apply cmul; [apply cconst|apply cmax].
Qed.
Lemma canti t0 a (m : R -> R) (x : R) : continuous m x -> continuous (fun x => antideriv x t0 a (m x)) x.
Proof.
  intros H. unfold antideriv.
  assert (D : continuous (fun x => m x + -1 * x) x) by (apply cplus; [exact H|apply cmul; [apply cconst|apply continuous_id]]).
  apply (cext (fun x => (-1 * ((m x + -1 * x + 2 / a) * (m x + (- t0 + 1 / a)) + 1 / a ^ 2)) * exp (- a * (m x + -1 * x)))).
  - intros y. replace (- a * (m y + -1 * y)) with (- a * (m y - y)) by ring. f_equal. ring.
  - apply cmul.
    + apply cmul; [apply cconst|]. apply cplus; [|apply cconst]. apply cmul; [apply cplus; [exact D|apply cconst]|apply cplus; [exact H|apply cconst]].
    + apply (continuous_comp (fun x => - a * (m x + -1 * x)) exp); [apply cmul; [apply cconst|exact D]|]. apply (ex_derive_continuous exp). auto_derive. trivial.
Qed.
Lemma caux t0 a (m m' : R -> R) (x : R) : continuous m x -> continuous m' x -> continuous (fun x => aux_int x (m x) (m' x) t0 a) x.
Proof.
  intros H H'. unfold aux_int. apply (cext (fun x => antideriv x t0 a (m' x) + -1 * antideriv x t0 a (m x))); [intros; ring|].
  apply cplus; [now apply canti|apply cmul; [apply cconst|now apply canti]].
Qed.
Lemma cim b l i (x : R) : continuous (fun x => int_im1_i b l x i) x.
Proof. unfold int_im1_i. cbv zeta. unfold Rdiv at 1. apply cmul; [|apply cconst]. apply cplus; apply caux; apply cmax || apply cmin. Qed.
Lemma cip b l i (x : R) : continuous (fun x => int_i_ip1 b l x i) x.
Proof.
  unfold int_i_ip1. cbv zeta.
  apply (cext (fun x => (-1 * (aux_int x (Rmax (x_i b i) x) (Rmax (x_ip1 b i) x) (x_ip1 b i) (m32_alpha l) + aux_int x (Rmin (x_i b i) x) (Rmin (x_ip1 b i) x) (x_ip1 b i) (- m32_alpha l))) * / (x_ip1 b i - x_i b i))); [intros; unfold Rdiv; ring|].
  apply cmul; [|apply cconst]. apply cmul; [apply cconst|]. apply cplus; apply caux; apply cmax || apply cmin.
Qed.
Lemma m32_cont b l i (x : R) : continuous (fun x => m32_rhs b l x i) x.
Proof.
  unfold m32_rhs. pose proof (cim b l i x). pose proof (cip b l i x).
  destruct (b_zero b); [now apply cplus|]. destruct (i =? b_len b - 1)%nat; [assumption|]. destruct (i =? 0)%nat; [assumption|now apply cplus].
Qed.
Lemma hat_times_cont grid zb b (h : R -> R) i : increasing grid -> basis_init grid zb = Ok b -> (forall x, continuous h x) -> (i < b_len b)%nat ->
  ex_RInt (fun x => basis_eval b x i * h x) (left_end grid) (right_end grid).
Proof.
  intros Hinc Hb Hh Hi. destruct (init_facts grid zb b Hinc Hb) as (A & B & Z & L & G3 & N2 & D & D1 & D2).
  unfold left_end, right_end. rewrite <- D1, <- D2.
  assert (E : forall p q c t0, ex_RInt (fun x => c * (x - t0) * h x) p q).
  { intros p q c t0. apply (@ex_RInt_continuous R_CompleteNormedModule). intros x _. apply cmul; [|apply Hh].
    apply (cext (fun x => c * (x + - t0))); [intros; ring|]. apply cmul; [apply cconst|]. apply cplus; [apply continuous_id|apply cconst]. }
  set (gi := at_ (b_grid b) i). set (gj := at_ (b_grid b) (i + 1)). set (gk := at_ (b_grid b) (i + 2)).
  destruct (E gi gj (/ (gj - gi)) gi) as [v1 H1]. destruct (E gj gk (- / (gk - gj)) gk) as [v2 H2].
  eexists. apply (int_hat_split b A B N2 (fun x v => v * h x) i v1 v2 Hi).
  - intros. ring.
  - intros _. apply (@is_RInt_ext R_NormedModule) with (2 := H1). intros x _. fold gi gj. unfold Rdiv. match goal with |- @eq _ ?a ?b => change (@eq R a b) end. ring.
  - intros _. apply (@is_RInt_ext R_NormedModule) with (2 := H2). intros x _. fold gk gj. unfold Rdiv. match goal with |- @eq _ ?a ?b => change (@eq R a b) end. ring.
Qed.
Lemma to_support grid zb b (h : R -> R) i v l0 h0 : increasing grid -> basis_init grid zb = Ok b -> (i < b_len b)%nat ->
  support_bounds b (Z.of_nat i) = Ok (l0, h0) -> is_RInt (fun x => basis_eval b x i * h x) (left_end grid) (right_end grid) v ->
  is_RInt (fun x => basis_eval b x i * h x) l0 h0 v.
Proof.
  intros Hinc Hb Hi S HI. destruct (C08_support grid zb b Hinc Hb (Z.of_nat i) i Hi (or_introl eq_refl)) as (l & u & S' & L1 & L2 & _).
  rewrite S in S'. injection S' as <- <-. fold (left_end grid) in L1. fold (right_end grid) in L2.
  assert (X : ex_RInt (fun x => basis_eval b x i * h x) l0 h0).
  { apply (@ex_RInt_Chasles_2 R_CompleteNormedModule _ (left_end grid) l0 h0); [lra|].
    apply (@ex_RInt_Chasles_1 R_CompleteNormedModule _ (left_end grid) h0 (right_end grid)); [lra|]. eexists; exact HI. }
  destruct X as [v' H']. pose proof (support_domain grid zb b Hinc Hb h i l0 h0 v' Hi S H') as H.
  assert (E : v' = v) by (rewrite <- (is_RInt_unique _ _ _ _ H); apply (is_RInt_unique _ _ _ _ HI)). now rewrite <- E.
Qed.
(** Choosing a number for each of finitely many indices. *)
Lemma choose n (P : nat -> R -> Prop) : (forall i, (i < n)%nat -> exists v, P i v) -> exists f, forall i, (i < n)%nat -> P i (f i).
Proof.
  induction n as [|n IH]; intros H; [exists (fun _ => 0); lia|]. destruct IH as [f Hf]; [intros i Hi; apply H; lia|]. destruct (H n ltac:(lia)) as [v Hv].
  exists (fun i => if (i =? n)%nat then v else f i). intros i Hi. destruct (Nat.eqb_spec i n) as [->|]; [exact Hv|apply Hf; lia].
Qed.
Lemma choose_row n (P : nat -> (nat -> R) -> Prop) : (forall i, (i < n)%nat -> exists v, P i v) -> exists f, forall i, (i < n)%nat -> P i (f i).
Proof.
  induction n as [|n IH]; intros H; [exists (fun _ _ => 0); lia|]. destruct IH as [f Hf]; [intros i Hi; apply H; lia|]. destruct (H n ltac:(lia)) as [v Hv].
  exists (fun i => if (i =? n)%nat then v else f i). intros i Hi. destruct (Nat.eqb_spec i n) as [->|]; [exact Hv|apply Hf; lia].
Qed.
Lemma m32_double_total g0 g1 z0 z1 b0 b1 nz0 nz1 m : increasing g0 -> increasing g1 -> basis_init g0 z0 = Ok b0 -> basis_init g1 z1 = Ok b1 ->
  mt_shape m = [] -> mt_nu m = HalfInt 1 -> 0 < mt_len m [] ->
  exists w res res1, dbl_rhs b0 b1 (fun x0 x1 => ceval (CMat m) (pt x0) (pt x1)) res /\
    (forall i, (i < b_len b0)%nat -> normalizer_gives b1 nz1 (res i) (res1 i)) /\
    (forall j, (j < b_len b1)%nat -> normalizer_gives b0 nz0 (fun i => res1 i j) (fun i => w i j)).
Proof.
  intros I0 I1 B0 B1 Hs Hn Hl. set (l := mt_len m []) in *.
  destruct (choose_row (b_len b0) (fun i r => forall j, (j < b_len b1)%nat -> is_RInt (fun x => basis_eval b0 x i * m32_rhs b1 l x j) (left_end g0) (right_end g0) (r j))) as [res Hres].
  { intros i Hi. apply (choose (b_len b1) (fun j v => is_RInt (fun x => basis_eval b0 x i * m32_rhs b1 l x j) (left_end g0) (right_end g0) v)).
    intros j Hj. destruct (hat_times_cont g0 z0 b0 (fun x => m32_rhs b1 l x j) i I0 B0 (m32_cont b1 l j) Hi) as [v Hv]. now exists v. }
  destruct (choose_row (b_len b0) (fun i r => normalizer_gives b1 nz1 (res i) r)) as [res1 H1].
  { intros i Hi. now apply (normalizer_total g1 z1). }
  destruct (choose_row (b_len b1) (fun j c => normalizer_gives b0 nz0 (fun i => res1 i j) c)) as [w H0].
  { intros j Hj. now apply (normalizer_total g0 z0). }
  exists (fun i j => w j i), res, res1. split; [|split; [exact H1|exact H0]].
  intros i j Hi Hj. destruct (C08_support g0 z0 b0 I0 B0 (Z.of_nat i) i Hi (or_introl eq_refl)) as (l0 & h0 & S0 & _).
  destruct (C08_support g1 z1 b1 I1 B1 (Z.of_nat j) j Hj (or_introl eq_refl)) as (l1 & h1 & S1 & _).
  exists l0, h0, l1, h1, (fun x => basis_eval b0 x i * m32_rhs b1 l x j). split; [exact S0|]. split; [exact S1|]. split.
  - intros x. pose proof (to_support g1 z1 b1 (matern_line 1 l x) j _ l1 h1 I1 B1 Hj S1 (m32_rhs_int g1 z1 b1 l x I1 B1 Hl j Hj)) as X.
    apply (@is_RInt_ext R_NormedModule) with (2 := @is_RInt_scal R_NormedModule _ _ _ (basis_eval b0 x i) _ X).
    intros u _. unfold scal. cbn -[ceval]. unfold mult. cbn -[ceval]. rewrite (elem_eval g0 z0 b0 I0 B0 i x Hi), (elem_eval g1 z1 b1 I1 B1 j u Hj), (eval_line m 1 x u Hs Hn Hl). fold l.
    match goal with |- @eq _ ?a ?b => change (@eq R a b) end. ring.
  - now apply (to_support g0 z0 b0 (fun x => m32_rhs b1 l x j) i (res i j) l0 h0 I0 B0 Hi S0), Hres.
Qed.
Theorem C40_matern32_double : forall grid grid' zb zb' b b' nz nz' m arg, increasing grid -> increasing grid' ->
  basis_init grid zb = Ok b -> basis_init grid' zb' = Ok b' -> (arg < 2)%nat ->
  mt_shape m = [] -> mt_nu m = HalfInt 1 -> 0 < mt_len m [] ->
  exists x, proj_cov (CMat m) (Proj b nz) arg = Ok x /\ (exists w, p_double (Proj b' nz') x w) /\
  forall w, p_double (Proj b' nz') x w ->
  match arg with
  | O => l2_both (b_len b) (b_len b') (hats b) (hats b') (left_end grid) (right_end grid) (left_end grid') (right_end grid') nz nz' (line (CMat m)) w
  | _ => l2_both (b_len b') (b_len b) (hats b') (hats b) (left_end grid') (right_end grid') (left_end grid) (right_end grid) nz' nz (line (CMat m)) w
  end.
Proof.
  intros grid grid' zb zb' b b' nz nz' m arg Hinc Hinc' Hb Hb' Ha Hs Hn Hl.
  destruct (C40_double grid grid' zb zb' b b' nz nz' (CMat m) arg Hinc Hinc' Hb Hb' Ha) as (x & E & H).
  - now apply RMat.
  - assert (X : forall g z c, increasing g -> basis_init g z = Ok c -> inner_ok c (left_end g) (right_end g) (CMat m)).
    { intros g z c Ig Bg. apply NLeaf; try discriminate. intros x j Hj.
      apply (@ex_RInt_ext R_NormedModule) with (2 := m32_inner g z c m Ig Bg Hs Hn Hl x j Hj). intros u _. f_equal. symmetry. now apply eval_line. }
    destruct arg; [exact (X grid' zb' b' Hinc' Hb')|exact (X grid zb b Hinc Hb)].
  - exists x. split; [exact E|]. split; [|exact H]. cbn [proj_cov] in E. destruct (Nat.ltb_spec 1 arg); [lia|]. rewrite Hs, Hn in E. cbn in E. injection E as <-.
    destruct arg; cbn [p_double Nat.eqb].
    + destruct (m32_double_total grid grid' zb zb' b b' nz nz' m Hinc Hinc' Hb Hb' Hs Hn Hl) as (w & res & res1 & X). exists w, res, res1. exact X.
    + destruct (m32_double_total grid' grid zb' zb b' b nz' nz m Hinc' Hinc Hb' Hb Hs Hn Hl) as (w & res & res1 & X). exists w, res, res1. exact X.
Qed.
Print Assumptions C40_matern32_double.

(** ** Validation *)
Theorem C40_bad_argnum : forall k p arg, (1 < arg)%nat -> proj_cov k p arg = Err ValueError.
Proof. intros k p arg H. apply Nat.ltb_lt in H. destruct k; cbn [proj_cov]; now rewrite H. Qed.
Print Assumptions C40_bad_argnum.
Theorem C40_bad_shape : forall k p arg, k <> CNotImpl -> c_shape k <> [] -> proj_cov k p arg = Err ValueError.
Proof.
  intros k p arg Hk Hs. assert (X : forall sh, sh <> [] -> negb (shape_eqb sh []) = true) by (intros [|n sh] H; [contradiction|reflexivity]).
  destruct (Nat.ltb_spec 1 arg) as [H|H]; [now apply C40_bad_argnum|].
  assert (L : (1 <? arg)%nat = false) by now apply Nat.ltb_ge. specialize (X _ Hs).
  destruct k; cbn [proj_cov c_shape] in *; rewrite L; try (rewrite X; reflexivity); congruence.
Qed.
Print Assumptions C40_bad_shape.

(** Projecting the first argument of a kernel by quadrature projects the second one: the
    derivative of the squared exponential kernel, whose values change sign when the
    arguments are exchanged. *)
Theorem C40_first_argument_refuted : exists grid b k x t w, increasing grid /\ basis_init grid true = Ok b /\ c_shape k = [] /\
  (forall u v, continuous (fun v => line k u v) v /\ continuous (fun v => line k v u) v) /\
  proj_cov k (Proj b false) 0 = Ok x /\ p_gives x t w /\
  ~ l2_in 0 (b_len b) (hats b) (left_end grid) (right_end grid) false (line k) t w.
Proof.
  set (ee := ExpQuad [] (fun _ => 1)). set (k := CExpDir ee (fun _ => 1) false). set (grid := [0; 1; 2]).
  assert (L : forall x y, line k x y = (x - y) * exp (- (1/2) * (x - y) ^ 2)).
  { intros x y. unfold line, k. cbn [ceval]. unfold expdir_eval, bnorm_sq, bsum, expdir_rescaled, rsum, vdiff, pt, ee. cbn [eq_shape eq_len all_indices map fold_right].
    replace ((x - y) / 1) with (x - y) by field. rewrite !Rplus_0_r. field. }
  assert (C : forall x u, continuous (fun u => line k x u) u).
  { intros x u. apply (continuous_ext (fun u => (x - u) * exp (- (1/2) * (x - u) ^ 2))); [intros; symmetry; apply L|].
    apply (ex_derive_continuous (fun u => (x - u) * exp (- (1/2) * (x - u) ^ 2))). auto_derive. trivial. }
  assert (C' : forall x u, continuous (fun u => line k u x) u).
  { intros x u. apply (continuous_ext (fun u => (u - x) * exp (- (1/2) * (u - x) ^ 2))); [intros; symmetry; apply L|].
    apply (ex_derive_continuous (fun u => (u - x) * exp (- (1/2) * (u - x) ^ 2))). auto_derive. trivial. }
  assert (Hinc : increasing grid).
  { intros i j Hij. cbn in Hij. destruct i as [|[|i]], j as [|[|[|j]]]; try lia; cbn; lra. }
  assert (Hb : basis_init grid true = Ok (mkbasis grid true)) by reflexivity. set (b := mkbasis grid true) in *.
  destruct (C40_single grid true b false k 1 Hinc Hb ltac:(lia)) as (x & E & _ & H).
  { apply ROther; [exact I|reflexivity| |discriminate]. intros t i l0 h0 Hi S.
    destruct (hat_times_cont grid true b (line k t) i Hinc Hb (C t) Hi) as [v Hv]. exists v. now apply (to_support grid true b (line k t) i v l0 h0). }
  destruct (H 0) as [[w Hw] Hall]. specialize (Hall w Hw 0%nat ltac:(cbn; lia)). cbv iota in Hall.
  exists grid, b, k, (PQuad k (Proj b false) true), 0, w. split; [exact Hinc|]. split; [exact Hb|]. split; [reflexivity|]. split; [intros u v; split; [apply C|apply C']|]. split; [reflexivity|]. split.
  { cbn in E. injection E as <-. exact Hw. }
  intros Bad. specialize (Bad 0%nat ltac:(cbn; lia)). cbv iota in Bad.
  assert (N : is_RInt (fun u => hats b 0 u * line k u 0) (left_end grid) (right_end grid) (- w 0%nat)).
  { apply (@is_RInt_ext R_NormedModule) with (2 := @is_RInt_opp R_NormedModule _ _ _ _ Hall). intros u _. unfold opp. cbn -[line hats]. rewrite !L.
    match goal with |- @eq _ ?a ?b => change (@eq R a b) end. replace (0 - u) with (- (u - 0)) by ring. replace ((- (u - 0)) ^ 2) with ((u - 0) ^ 2) by ring. ring. }
  assert (Z : w 0%nat = 0).
  { pose proof (is_RInt_unique _ _ _ _ N) as e1. pose proof (is_RInt_unique _ _ _ _ Bad) as e2. assert (e3 : - w 0%nat = w 0%nat) by exact (eq_trans (eq_sym e1) e2). lra. }
  rewrite Z in Bad. unfold left_end, right_end, grid in Bad. cbn [nth length Nat.sub] in Bad.
  assert (P : 0 < RInt (fun u => hats b 0 u * line k u 0) 0 2).
  { destruct (C08_support grid true b Hinc Hb 0%Z 0%nat ltac:(cbn; lia) (or_introl eq_refl)) as (l0 & h0 & S & _ & _ & Hpos & Hout).
    cbn in S. injection S as <- <-. unfold x_im1, x_ip1, at_, b in Hpos, Hout. cbn [b_grid nth Nat.add] in Hpos, Hout.
    set (f := fun u => hats b 0 u * line k u 0) in *.
    assert (X1 : ex_RInt f 0 1) by (apply (@ex_RInt_Chasles_1 R_CompleteNormedModule _ 0 1 2); [lra|eexists; exact Bad]).
    assert (X2 : ex_RInt f 1 2) by (apply (@ex_RInt_Chasles_2 R_CompleteNormedModule _ 0 1 2); [lra|eexists; exact Bad]).
    rewrite <- (@RInt_Chasles R_CompleteNormedModule f 0 1 2 X1 X2). change (0 < RInt f 0 1 + RInt f 1 2).
    assert (G : 0 <= RInt f 1 2).
    { apply RInt_ge_0; [lra|exact X2|]. intros u Hu. unfold f. apply Rmult_le_pos; [left; apply Hpos; unfold grid; cbn; lra|].
      rewrite L. apply Rmult_le_pos; [lra|left; apply exp_pos]. }
    assert (G1 : 0 < RInt f 0 1); [|now apply Rplus_lt_le_0_compat].
    assert (E1 : RInt f 0 1 = RInt (fun u => u * (u * exp (- (1/2) * u ^ 2))) 0 1).
    { apply RInt_ext. intros u Hu. rewrite Rmin_left, Rmax_right in Hu by lra. unfold f. rewrite L.
      replace (u - 0) with u by ring. f_equal. unfold hats, basis_eval, b. cbn [b_zero]. unfold hat_value, left_factor, x_i, x_im1, at_. cbn [b_grid grid nth Nat.add].
      destruct (Rltb u 1) eqn:Eu; [|exfalso; revert Eu; unfold Rltb; destruct (Rlt_dec u 1); [discriminate|lra]].
      rewrite Rmax_right; [field|]. apply Rmult_le_pos; lra. }
    rewrite E1. apply RInt_gt_0; [lra| |].
    - intros u Hu. apply Rmult_lt_0_compat; [lra|]. apply Rmult_lt_0_compat; [lra|apply exp_pos].
    - intros u Hu. apply (ex_derive_continuous (fun u => u * (u * exp (- (1/2) * u ^ 2)))). auto_derive. trivial. }
  rewrite (is_RInt_unique _ _ _ _ Bad) in P. lra.
Qed.
Print Assumptions C40_first_argument_refuted.

(** Concrete case: the unnormalised projection at the left end of the grid 0, 1, 2 with one
    interior hat function. *)
Example C40_example :
  let m := Matern [] (fun _ => sqrt 3) (HalfInt 1) in
  increasing [0; 1; 2] /\ basis_init [0; 1; 2] true = Ok (mkbasis [0; 1; 2] true) /\ b_len (mkbasis [0; 1; 2] true) = 1%nat /\
  0 < mt_len m [] /\ m32_rhs (mkbasis [0; 1; 2] true) (mt_len m []) 0 0 = 3 - 8 * exp (-1) + 5 * exp (-2).
Proof.
  cbv zeta. assert (P : 0 < sqrt 3) by (apply sqrt_lt_R0; lra). split.
  { intros i j Hij. cbn in Hij. destruct i as [|[|i]], j as [|[|[|j]]]; try lia; cbn; lra. }
  split; [reflexivity|]. split; [reflexivity|]. split; [exact P|]. cbn [mt_len].
  unfold m32_rhs, int_im1_i, int_i_ip1, x_im1, x_i, x_ip1, at_. cbn [b_zero b_grid nth Nat.add].
  replace (m32_alpha (sqrt 3)) with 1 by (unfold m32_alpha; field; lra).
  rewrite !Rmax_left, !Rmin_right by lra. unfold aux_int, antideriv.
  replace (- (1) * (1 - 0)) with (-1) by ring. replace (- (1) * (0 - 0)) with 0 by ring. replace (- (1) * (2 - 0)) with (-2) by ring. rewrite exp_0. field.
Qed.
Print Assumptions C40_example.
