(** C27: Galerkin covariance functions. *)
From Coq Require Import List Arith Lia Bool Reals Lra.
From Verif Require Import Base NdArray NdData BlockModel CovModel CovSpec CovProofs CrossModel CrossSpec CrossProofs CrossKern CrossFun CrossViews
  ParamModel ParamSpec ParamProofs GalerkinModel GalerkinSpec GalerkinProofs.
Import ListNotations.

(** The hypotheses on a projection [P] of functions of points of shape [insh] and a scalar
    covariance function [v]: the projection is linear on a class of functions that contains
    the sections of [v] and their projections. *)
Record admissible {F : fops} (insh : shape) (v : point F -> point F -> F) (P : projection F) (D : (point F -> F) -> Prop) : Prop := {
  ad_fits : pj_in P = insh /\ ft_in (pj_basis P) = insh /\ ft_out (pj_basis P) = [pj_n P] /\ forall x, ft_op (pj_basis P) x = false;
  ad_linear : linear_on D (pj_n P) (pj_fun P);
  ad_sym : forall x y, v x y = v y x;
  ad_section : forall x, D (v x);
  ad_projected : forall j, j < pj_n P -> D (fun x => pj_fun P (v x) j) }.
(** Basis functions as numbers. *)
Definition phi {F : fops} (P : projection F) (x : point F) (j : nat) : F := ft_val (pj_basis P) x [j].

Theorem C27_constructor : forall (F : fops) insh (v : point F -> point F -> F) P D, admissible insh v P D -> exists g, gal_init insh v P = Ok g /\ g_in g = insh.
Proof. intros F insh v P D H. destruct (gal_init_ok insh v P (ad_fits _ _ _ _ H)) as [c [_ [_ E]]]. rewrite E. eexists. split; reflexivity. Qed.
Theorem C27_constructor_domain : forall (F : fops) insh (v : point F -> point F -> F) P, pj_in P <> insh -> gal_init insh v P = Err ValueError.
Proof.
  intros F insh v P H. unfold gal_init, pj_kPa, pj_validate. cbn. destruct (shape_eqb_spec insh (pj_in P)); [congruence|reflexivity].
Qed.
(** The covariance function equals [P k P* + (I - P) k (I - P)*] at all batches of points. *)
Theorem C27_decomposition : forall (F : fops), flaws F -> forall insh (v : point F -> point F -> F) P D g x0 x1 b0 b1 b,
  admissible insh v P D -> gal_init insh v P = Ok g ->
  nshape x0 = b0 ++ insh -> nshape (second x0 x1) = b1 ++ insh -> broadcast_shapes b0 b1 = Ok b ->
  exists a, gal_call g x0 x1 = Ok a /\
    array_is a b (fun i => decoupled (pj_n P) (phi P) (pj_fun P) v (pt x0 (operand_index b0 i)) (pt (second x0 x1) (operand_index b1 i))).
Proof.
  intros F LF insh v P D g x0 x1 b0 b1 b [HF HL HS HD HP] HG E0 E1 B.
  destruct (gal_call_ok LF insh v P g x0 x1 b0 b1 b HF HG (conj E0 E1) B) as [a [Ea [Sa Va]]]. exists a. split; [exact Ea|]. split; [exact Sa|].
  intros i Hi. rewrite Va by exact Hi. symmetry. now apply (decoupled_value LF) with (D := D).
Qed.
(** Symmetry, if the projected covariance matrix is symmetric (the projections in the two
    arguments commute). *)
Theorem C27_symmetric : forall (F : fops), flaws F -> forall insh (v : point F -> point F -> F) P D g x0 x1 b0 b1 b,
  admissible insh v P D -> gal_init insh v P = Ok g ->
  (forall i j, i < pj_n P -> j < pj_n P -> pj_fun P (fun x => pj_fun P (v x) j) i = pj_fun P (fun x => pj_fun P (v x) i) j) ->
  nshape x0 = b0 ++ insh -> nshape x1 = b1 ++ insh -> broadcast_shapes b0 b1 = Ok b ->
  exists a a', gal_call g x0 (Some x1) = Ok a /\ gal_call g x1 (Some x0) = Ok a' /\ nd_eq a a'.
Proof.
  intros F LF insh v P D g x0 x1 b0 b1 b [HF HL HS HD HP] HG SP E0 E1 B.
  destruct (gal_call_ok LF insh v P g x0 (Some x1) b0 b1 b HF HG (conj E0 E1) B) as [a [Ea [Sa Va]]].
  assert (B' : broadcast_shapes b1 b0 = Ok b) by now rewrite broadcast_sym.
  destruct (gal_call_ok LF insh v P g x1 (Some x0) b1 b0 b HF HG (conj E1 E0) B') as [a' [Ea' [Sa' Va']]].
  exists a, a'. split; [exact Ea|]. split; [exact Ea'|]. split; [congruence|]. rewrite Sa. intros i Hi. rewrite Va, Va' by exact Hi.
  cbn [second]. now apply (gvalue_sym LF).
Qed.
(** A normalised projection leaves its basis unchanged. *)
Definition basis_reproduced {F : fops} (P : projection F) (D : (point F -> F) -> Prop) : Prop :=
  reproduces (pj_n P) (phi P) (pj_fun P) /\ forall j, j < pj_n P -> D (fun x => phi P x j).
(** Applied to the first argument, the same projection gives the cross-covariance with the
    random vector on the first axis, entry by entry the projection of the new covariance
    function; applied again, the covariance matrix of the projection before. *)
Theorem C27_projection_first : forall (F : fops), flaws F -> forall insh (v : point F -> point F -> F) P D g x b,
  admissible insh v P D -> basis_reproduced P D -> gal_init insh v P = Ok g -> nshape x = b ++ insh ->
  exists pv a, pj_galerkin P g 0 = Ok pv /\ p_call (snd pv) x = Ok a /\
    cross_array a true b [] [pj_n P] (fun i _ r => pj_fun P (fun y => decoupled (pj_n P) (phi P) (pj_fun P) v y (pt x i)) (nth 0 r 0)) /\
    (pj_normalized P = true -> exists c, pj_param P pv = Ok c /\
      shows c [pj_n P] [pj_n P] (fun i j => pj_fun P (fun y => pj_fun P (v y) (nth 0 j 0)) (nth 0 i 0))).
Proof.
  intros F LF insh v P D g x b [HF HL HS HD HP] [RP DP] HG E. destruct (gal_init_ok insh v P HF) as [c [_ [Hc EG]]]. rewrite EG in HG. injection HG as <-.
  assert (HF' := HF). destruct HF' as [EI [EF [EO EP]]].
  unfold pj_galerkin, pj_validate. cbn [g_in g_P g_PkP Nat.ltb Nat.leb]. rewrite EI, shape_eqb_refl, Nat.eqb_refl. cbn [bind Nat.eqb].
  assert (SZ : size [pj_n P] = pj_n P) by (cbn; lia).
  destruct (param_shows c (ft_in (pj_basis P)) (pj_n P) (fun x k => ft_val (pj_basis P) x [k]) true x b (pj_n P) [pj_n P] (fun i j => PkP (pj_fun P) v (nth 0 i 0) (nth 0 j 0))) as [a [Ea [Sa Va]]];
    [now rewrite EF|exact Hc|exact SZ|discriminate|].
  eexists. exists a. split; [reflexivity|]. cbn [snd fst]. split; [exact Ea|]. split.
  - split; [exact Sa|]. intros i o r Hi Ho Hr. specialize (Va i o r Hi Ho Hr). rewrite Va. cbn beta.
    inversion Hr as [|m ? t ? Hm Ht]; subst. inversion Ht; subst. cbn [nth].
    destruct (project_first LF (pj_n P) (phi P) D (pj_fun P) v HL HS HD HP RP DP (pt x i)) as [D1 V1].
    destruct (lin_ext LF (pj_n P) D (pj_fun P) HL (fun y => decoupled (pj_n P) (phi P) (pj_fun P) v y (pt x i)) _ D1) as [_ V2].
    { intros y. now apply (decoupled_value LF) with (D := D). }
    rewrite (V2 m Hm), (V1 m Hm). apply sum_ext_seq. intros k Hk. f_equal. unfold PkP, kP.
    replace (nth 0 (unravel [pj_n P] k) 0) with k; [reflexivity|]. cbn [unravel nth]. change (size []) with 1. now rewrite Nat.div_1_r.
  - intros N. exists c. unfold pj_param. cbn [snd fst]. rewrite Nat.eqb_refl, N. split; [reflexivity|exact Hc].
Qed.
(** The same for the second argument, the random vector on the last axis. *)
Theorem C27_projection_second : forall (F : fops), flaws F -> forall insh (v : point F -> point F -> F) P D g x b,
  admissible insh v P D -> basis_reproduced P D -> gal_init insh v P = Ok g -> nshape x = b ++ insh ->
  (forall i j, i < pj_n P -> j < pj_n P -> pj_fun P (fun x => pj_fun P (v x) j) i = pj_fun P (fun x => pj_fun P (v x) i) j) ->
  exists pv a, pj_galerkin P g 1 = Ok pv /\ p_call (snd pv) x = Ok a /\
    cross_array a false b [] [pj_n P] (fun i _ r => pj_fun P (fun y => decoupled (pj_n P) (phi P) (pj_fun P) v (pt x i) y) (nth 0 r 0)) /\
    (pj_normalized P = true -> exists c, pj_param P pv = Ok c /\
      shows c [pj_n P] [pj_n P] (fun i j => pj_fun P (fun y => pj_fun P (v y) (nth 0 j 0)) (nth 0 i 0))).
Proof.
  intros F LF insh v P D g x b [HF HL HS HD HP] [RP DP] HG E SP. destruct (gal_init_ok insh v P HF) as [c [_ [Hc EG]]]. rewrite EG in HG. injection HG as <-.
  assert (HF' := HF). destruct HF' as [EI [EF [EO EP]]].
  unfold pj_galerkin, pj_validate. cbn [g_in g_P g_PkP Nat.ltb Nat.leb]. rewrite EI, shape_eqb_refl, Nat.eqb_refl. cbn [bind Nat.eqb].
  assert (SZ : size [pj_n P] = pj_n P) by (cbn; lia).
  destruct (param_shows c (ft_in (pj_basis P)) (pj_n P) (fun x k => ft_val (pj_basis P) x [k]) false x b (pj_n P) [pj_n P] (fun i j => PkP (pj_fun P) v (nth 0 i 0) (nth 0 j 0))) as [a [Ea [Sa Va]]];
    [now rewrite EF|exact Hc|exact SZ|reflexivity|].
  eexists. exists a. split; [reflexivity|]. cbn [snd fst]. split; [exact Ea|]. split.
  - split; [exact Sa|]. intros i o r Hi Ho Hr. specialize (Va i o r Hi Ho Hr). rewrite Va. cbn beta.
    inversion Hr as [|m ? t ? Hm Ht]; subst. inversion Ht; subst. cbn [nth].
    destruct (project_first LF (pj_n P) (phi P) D (pj_fun P) v HL HS HD HP RP DP (pt x i)) as [D1 V1].
    destruct (lin_ext LF (pj_n P) D (pj_fun P) HL (fun y => decoupled (pj_n P) (phi P) (pj_fun P) v (pt x i) y) _ D1) as [_ V2].
    { intros y. rewrite (decoupled_value LF) with (D := D) by assumption. now apply (gvalue_sym LF). }
    rewrite (V2 m Hm), (V1 m Hm). apply sum_ext_seq. intros k Hk. f_equal. unfold PkP, kP.
    replace (nth 0 (unravel [pj_n P] k) 0) with k; [reflexivity|]. cbn [unravel nth]. change (size []) with 1. now rewrite Nat.div_1_r.
  - intros N. exists c. unfold pj_param. cbn [snd fst]. rewrite Nat.eqb_refl, N. split; [reflexivity|exact Hc].
Qed.
(** The projection of the new process has the covariance matrix it had before, and it is
    uncorrelated with the residual at every point. *)
Theorem C27_uncorrelated : forall (F : fops), flaws F -> forall insh (v : point F -> point F -> F) P D,
  admissible insh v P D -> basis_reproduced P D ->
  let n := pj_n P in let proj := pj_fun P in let G := decoupled n (phi P) proj v in
  (forall i j, i < n -> j < n -> proj (fun y => proj (fun x => G x y) i) j = proj (fun x => proj (v x) j) i) /\
  (forall i y, i < n -> residual n (phi P) proj (fun y => proj (fun x => G x y) i) y = f0).
Proof.
  intros F LF insh v P D [HF HL HS HD HP] [RP DP] n proj G.
  assert (V : forall y i, i < n -> proj (fun x => G x y) i = fsum (map (fun j => fmul (PkP proj v i j) (phi P y j)) (seq 0 n))).
  { intros y i Hi. destruct (project_first LF n (phi P) D proj v HL HS HD HP RP DP y) as [D1 V1].
    destruct (lin_ext LF n D proj HL (fun x => G x y) _ D1) as [_ V2]; [intros x; now apply (decoupled_value LF) with (D := D)|].
    now rewrite (V2 i Hi), (V1 i Hi). }
  assert (W : forall i, i < n -> forall j, j < n -> proj (fun y => proj (fun x => G x y) i) j = PkP proj v i j).
  { intros i Hi j Hj. destruct (project_basis LF n (phi P) D proj HL RP DP (fun j => PkP proj v i j) (fun y => proj (fun x => G x y) i)) as [_ W]; [|now apply W].
    intros y. now apply V. }
  split; [exact (fun i j Hi Hj => W i Hi j Hj)|]. intros i y Hi. unfold residual, project.
  rewrite (V y i Hi). rewrite (sum_ext_seq (fun j => fmul (phi P y j) (proj (fun y0 => proj (fun x => G x y0) i) j)) (fun j => fmul (PkP proj v i j) (phi P y j))).
  - destruct (fl_field F LF) as [R _ _ _]. rewrite (Ring_theory.Rsub_def R). apply (Ring_theory.Ropp_def R).
  - intros j Hj. rewrite (W i Hi j Hj). destruct (fl_field F LF) as [R _ _ _]. apply (Ring_theory.Rmul_comm R).
Qed.
(** Another projection object is not supported. *)
Theorem C27_other_projection : forall (F : fops) (P : projection F) (g : galerkin F) arg,
  pj_id P <> pj_id (g_P g) -> arg < 2 -> pj_in P = g_in g -> pj_galerkin P g arg = Err NotImplementedError.
Proof.
  intros F P g arg N Ha E. unfold pj_galerkin, pj_validate. destruct (Nat.ltb_spec 1 arg); [lia|]. rewrite E, shape_eqb_refl. cbn [bind].
  destruct (Nat.eqb_spec (pj_id P) (pj_id (g_P g))); [contradiction|reflexivity].
Qed.
Theorem C27_bad_argument : forall (F : fops) (P : projection F) (g : galerkin F) arg,
  1 < arg \/ g_in g <> pj_in P -> pj_galerkin P g arg = Err ValueError.
Proof.
  intros F P g arg H. unfold pj_galerkin, pj_validate. destruct (Nat.ltb_spec 1 arg); [reflexivity|].
  destruct (shape_eqb_spec (g_in g) (pj_in P)); [|reflexivity]. destruct H; [lia|contradiction].
Qed.
Theorem C27_projection_twice : forall (F : fops) (P : projection F) id c insh n basis rev,
  pj_basis_id P <> id \/ pj_normalized P = false -> pj_param P (id, PParam c insh n basis rev) = Err NotImplementedError.
Proof.
  intros F P id c insh n basis rev H. unfold pj_param. cbn [snd fst]. destruct (Nat.eqb_spec (pj_basis_id P) id) as [E|E]; [|reflexivity].
  destruct H as [H|H]; [contradiction|now rewrite H].
Qed.
(** The embedded cross-covariance in the other orientation (random vector first), for at
    most one batch axis. *)
Theorem C27_embedded_reversed : forall (F : fops) insh n (c : point F -> index -> index -> F) (f : feature F) x0 x1 b0 b1 b,
  ft_in f = insh -> ft_out f = [n] -> (forall x, ft_op f x = false) -> length b1 <= 1 ->
  nshape x0 = b0 ++ insh -> nshape (second x0 x1) = b1 ++ insh -> broadcast_shapes b0 b1 = Ok b ->
  exists a, em_call (PLeaf insh [] [n] true c) f x0 x1 = Ok a /\
    array_is a b (fun i => dot n (fun k => ft_val f (pt x0 (operand_index b0 i)) [k]) (fun k => c (pt (second x0 x1) (operand_index b1 i)) [] [k])).
Proof. intros F insh n c f x0 x1 b0 b1 b EI O P L E0 E1 B. apply em_call_rev; auto. now split. Qed.

(** ** Positive semidefiniteness *)
Ltac rr := cbn [fadd fsub fmul fopp RF]; match goal with |- @eq _ ?a ?b => change (@eq R a b) end; ring.
Section Psd.
Context {X : Type} (n : nat) (ph : X -> nat -> RF) (proj : (X -> RF) -> nat -> RF) (k : X -> X -> RF).
Local Open Scope R_scope.
Let w (l : list (R * X)) : nat -> RF := fun i => @fsum RF (map (fun p => (fst p * ph (snd p) i)%R) l).
Lemma dot_combo (u : nat -> RF) (l : list (R * X)) : @fsum RF (map (fun q => (fst q * @dot RF n u (ph (snd q)))%R) l) = @dot RF n u (w l).
Proof.
  unfold dot, w. transitivity (@fsum RF (map (fun i => @fsum RF (map (fun q => (u i * (fst q * ph (snd q) i))%R) l)) (seq 0 n))).
  - etransitivity; [|apply (sum_swap RF_laws)]. apply (sum_ext (F := RF)). intros q _.
    etransitivity; [apply (sum_scal_l RF_laws)|]. apply (sum_ext (F := RF)). intros i _. rr.
  - apply (sum_ext (F := RF)). intros i _. symmetry. apply (sum_scal_l RF_laws).
Qed.
Lemma cross_combo (u : X -> nat -> RF) (l : list (R * X)) :
  @fsum RF (map (fun p => @fsum RF (map (fun q => (fst p * fst q * @dot RF n (u (snd p)) (ph (snd q)))%R) l)) l) =
  @fsum RF (map (fun p => (fst p * @dot RF n (u (snd p)) (w l))%R) l).
Proof.
  apply (sum_ext (F := RF)). intros p _. rewrite <- dot_combo. symmetry. etransitivity; [apply (sum_scal_l RF_laws)|].
  apply (sum_ext (F := RF)). intros q _. rr.
Qed.
Lemma quad_form (l : list (R * X)) :
  @fsum RF (map (fun p => @fsum RF (map (fun q => (fst p * fst q * @gvalue RF X n ph proj k (snd p) (snd q))%R) l)) l) =
  joint_variance n k (kP proj k) (PkP proj k) l (fun i => - w l i) + joint_variance n k (kP proj k) (PkP proj k) [] (w l).
Proof.
  set (B := fun p q : R * X => (fst p * fst q * @bilinear RF n (PkP proj k) (ph (snd p)) (ph (snd q)))%R).
  set (K := fun p q : R * X => (fst p * fst q * k (snd p) (snd q))%R).
  set (C := fun p q : R * X => (fst p * fst q * @dot RF n (kP proj k (snd p)) (ph (snd q)))%R).
  assert (S4 : forall f1 f2 f3 f4 : R * X -> R * X -> R,
    @fsum RF (map (fun p => @fsum RF (map (fun q => f1 p q + f2 p q - f3 p q - f4 p q) l)) l) =
    @fsum RF (map (fun p => @fsum RF (map (fun q => f1 p q) l)) l) + @fsum RF (map (fun p => @fsum RF (map (fun q => f2 p q) l)) l)
    - @fsum RF (map (fun p => @fsum RF (map (fun q => f3 p q) l)) l) - @fsum RF (map (fun p => @fsum RF (map (fun q => f4 p q) l)) l)).
  { intros f1 f2 f3 f4.
    assert (I : forall (g1 g2 g3 g4 : R * X -> R) (m : list (R * X)), @fsum RF (map (fun q => g1 q + g2 q - g3 q - g4 q) m) =
      @fsum RF (map g1 m) + @fsum RF (map g2 m) - @fsum RF (map g3 m) - @fsum RF (map g4 m)).
    { intros g1 g2 g3 g4 m. induction m as [|q m IH]; [cbn; rr|]. cbn [map]. change (@fsum RF (?a :: ?r)) with (a + @fsum RF r). rewrite IH. rr. }
    rewrite <- I. apply (sum_ext (F := RF)). intros p _. apply I. }
  transitivity (@fsum RF (map (fun p => @fsum RF (map (fun q => 2 * B p q + K p q - C p q - C q p) l)) l)).
  { apply (sum_ext (F := RF)). intros p _. apply (sum_ext (F := RF)). intros q _. unfold B, K, C, gvalue. rr. }
  rewrite S4.
  assert (EB : @fsum RF (map (fun p => @fsum RF (map (fun q => 2 * B p q) l)) l) = 2 * @bilinear RF n (PkP proj k) (w l) (w l)).
  { transitivity (2 * @fsum RF (map (fun p => @fsum RF (map (fun q => B p q) l)) l)).
    - symmetry. etransitivity; [apply (sum_scal_l RF_laws)|]. apply (sum_ext (F := RF)). intros p _. apply (sum_scal_l RF_laws).
    - f_equal. apply (bilinear_combo RF_laws n (PkP proj k) ph l). }
  assert (EC : @fsum RF (map (fun p => @fsum RF (map (fun q => C p q) l)) l) = @fsum RF (map (fun p => (fst p * @dot RF n (kP proj k (snd p)) (w l))%R) l)).
  { apply cross_combo. }
  assert (EC' : @fsum RF (map (fun p => @fsum RF (map (fun q => C q p) l)) l) = @fsum RF (map (fun p => @fsum RF (map (fun q => C p q) l)) l)).
  { apply (sum_swap RF_laws (fun p q => C q p)). }
  rewrite EB, EC', EC. unfold joint_variance. cbn [map]. fold K.
  assert (EN : @bilinear RF n (PkP proj k) (fun i => - w l i) (fun i => - w l i) = @bilinear RF n (PkP proj k) (w l) (w l)).
  { unfold bilinear. apply (sum_ext (F := RF)). intros i _. apply (sum_ext (F := RF)). intros j _. rr. }
  assert (ED : @fsum RF (map (fun p => (fst p * @dot RF n (kP proj k (snd p)) (fun i => - w l i))%R) l) = - @fsum RF (map (fun p => (fst p * @dot RF n (kP proj k (snd p)) (w l))%R) l)).
  { assert (D1 : forall u, @dot RF n u (fun i => - w l i) = - @dot RF n u (w l)).
    { intros u. unfold dot. generalize (seq 0 n). intros s. induction s as [|i s IH]; [cbn; rr|]. cbn [map]. change (@fsum RF (?a :: ?r)) with (a + @fsum RF r). rewrite IH. rr. }
    generalize l at 2 4. intros m. induction m as [|p m IH]; [cbn; rr|]. cbn [map]. change (@fsum RF (?a :: ?r)) with (a + @fsum RF r). rewrite IH, D1. rr. }
  rewrite EN, ED. fold w. change (@fsum RF []) with 0. unfold K. rr.
Qed.
End Psd.
(** If every linear combination of values of the original process and of the coefficients
    of its projection has a non-negative variance, so has every linear combination of
    values of the new one. *)
Theorem C27_psd : forall insh (v : point RF -> point RF -> RF) P D g (K : point RF -> point RF -> R),
  admissible insh v P D -> gal_init insh v P = Ok g ->
  (forall l d, (0 <= joint_variance (pj_n P) v (fun x j => pj_fun P (v x) j) (fun i j => pj_fun P (fun x => pj_fun P (v x) j) i) l d)%R) ->
  (forall p q, exists a, gal_call g (Nd insh p) (Some (Nd insh q)) = Ok a /\ nat_ a [] = K p q) ->
  psd_kernel K.
Proof.
  intros insh v P D g K HA HG HV HK l.
  assert (EK : forall p q, K p q = gvalue (pj_n P) (phi P) (pj_fun P) v p q).
  { intros p q. destruct (HK p q) as [a [Ea <-]].
    destruct (gal_call_ok RF_laws insh v P g (Nd insh p) (Some (Nd insh q)) [] [] [] (ad_fits _ _ _ _ HA) HG (conj eq_refl eq_refl) eq_refl) as [a' [Ea' [_ V]]].
    rewrite Ea in Ea'. injection Ea' as <-. apply (V []). constructor. }
  pose proof (quad_form (pj_n P) (phi P) (pj_fun P) v l) as Q.
  match type of Q with ?x = ?y => match goal with |- (0 <= ?s)%R => replace s with y; [apply Rplus_le_le_0_compat; apply HV|rewrite <- Q] end end.
  apply (sum_ext (F := RF)). intros p _. apply (sum_ext (F := RF)). intros q _. now rewrite EK.
Qed.

(** ** Interpolation *)
(** The hypotheses hold for the projection that interpolates at nodes [t], with a basis
    that is one at its own node and zero at the others: all kernels, no integrals. *)
Section Interpolation.
Context {F : fops} (LF : flaws F).
Variables (insh : shape) (v : point F -> point F -> F) (P : projection F) (t : nat -> point F).
Hypothesis (HF : pj_in P = insh /\ ft_in (pj_basis P) = insh /\ ft_out (pj_basis P) = [pj_n P] /\ forall x, ft_op (pj_basis P) x = false).
Hypothesis (HP : forall f i, pj_fun P f i = f (t i)).
Lemma interpolation_admissible : (forall x y, v x y = v y x) -> admissible insh v P (fun _ => True).
Proof.
  intros S. split; auto. intros l h _ E. split; [exact I|]. intros i Hi. rewrite HP, E. apply sum_ext. intros p _. now rewrite HP.
Qed.
Lemma interpolation_reproduces : (forall i j, i < pj_n P -> j < pj_n P -> phi P (t i) j = if i =? j then f1 else f0) -> basis_reproduced P (fun _ => True).
Proof. intros H. split; [|trivial]. intros i j Hi Hj. rewrite HP. now apply H. Qed.
Lemma interpolation_symmetric : (forall x y, v x y = v y x) ->
  forall i j, i < pj_n P -> j < pj_n P -> pj_fun P (fun x => pj_fun P (v x) j) i = pj_fun P (fun x => pj_fun P (v x) i) j.
Proof. intros S i j Hi Hj. rewrite !HP. apply S. Qed.
End Interpolation.
Lemma joint_interpolation {X} n (k : X -> X -> RF) (t : nat -> X) l d : (forall x y, k x y = k y x) -> psd_kernel k ->
  (0 <= joint_variance n k (fun x j => k x (t j)) (fun i j => k (t i) (t j)) l d)%R.
Proof.
  intros S PS. set (m := map (fun i => (d i : R, t i)) (seq 0 n)). pose proof (PS (l ++ m)) as H.
  match type of H with (0 <= ?a)%R => match goal with |- (0 <= ?b)%R => replace b with a; [exact H|] end end. clear H.
  assert (A : forall a b : list R, @fsum RF (a ++ b) = (@fsum RF a + @fsum RF b)%R).
  { intros a b. induction a as [|x a IH]; [symmetry; apply Rplus_0_l|]. cbn [app]. change (@fsum RF (?u :: ?r)) with (u + @fsum RF r)%R. rewrite IH. rr. }
  set (Q := fun p q : R * X => (fst p * fst q * k (snd p) (snd q))%R).
  assert (SP : forall a b : list (R * X), @fsum RF (map (fun p => @fsum RF (map (fun q => Q p q) (a ++ b))) (a ++ b)) =
    (@fsum RF (map (fun p => @fsum RF (map (fun q => Q p q) a)) a) + @fsum RF (map (fun p => @fsum RF (map (fun q => Q p q) b)) a)
     + (@fsum RF (map (fun p => @fsum RF (map (fun q => Q p q) a)) b) + @fsum RF (map (fun p => @fsum RF (map (fun q => Q p q) b)) b)))%R).
  { intros a b. rewrite map_app, A. apply f_equal2.
    - etransitivity; [|apply (sum_add RF_laws)]. apply (sum_ext (F := RF)). intros p _. now rewrite map_app, A.
    - etransitivity; [|apply (sum_add RF_laws)]. apply (sum_ext (F := RF)). intros p _. now rewrite map_app, A. }
  fold Q. etransitivity; [apply SP|].
  assert (E1 : @fsum RF (map (fun p => @fsum RF (map (fun q => Q p q) l)) m) = @fsum RF (map (fun p => @fsum RF (map (fun q => Q p q) m)) l)).
  { etransitivity; [apply (sum_swap RF_laws)|]. apply (sum_ext (F := RF)). intros p _. apply (sum_ext (F := RF)). intros q _. unfold Q. rewrite S. rr. }
  assert (E2 : @fsum RF (map (fun p => @fsum RF (map (fun q => Q p q) m)) l) = @fsum RF (map (fun p => (fst p * @dot RF n (fun j => k (snd p) (t j)) d)%R) l)).
  { apply (sum_ext (F := RF)). intros p _. unfold m, dot. rewrite map_map. symmetry. etransitivity; [apply (sum_scal_l RF_laws)|].
    apply (sum_ext (F := RF)). intros i _. unfold Q. cbn [fst snd]. rr. }
  assert (E3 : @fsum RF (map (fun p => @fsum RF (map (fun q => Q p q) m)) m) = @bilinear RF n (fun i j => k (t i) (t j)) d d).
  { unfold bilinear, m. rewrite map_map. apply (sum_ext (F := RF)). intros i _. rewrite map_map. apply (sum_ext (F := RF)). intros j _. unfold Q. cbn [fst snd]. rr. }
  rewrite E1, E2, E3. unfold joint_variance, Q. cbv beta.
  repeat match goal with |- context [@fsum RF ?a] => let z := fresh in set (z := @fsum RF a); clearbody z end.
  match goal with |- context [@bilinear RF ?a ?b ?c ?e] => let z := fresh in set (z := @bilinear RF a b c e); clearbody z end. rr.
Qed.
(** For interpolation the new covariance function is positive semidefinite whenever the
    old one is. *)
Theorem C27_interpolation_psd : forall insh (v : point RF -> point RF -> RF) P (t : nat -> point RF) g (K : point RF -> point RF -> R),
  pj_in P = insh -> ft_in (pj_basis P) = insh -> ft_out (pj_basis P) = [pj_n P] -> (forall x, ft_op (pj_basis P) x = false) ->
  (forall f i, pj_fun P f i = f (t i)) -> (forall x y, v x y = v y x) -> psd_kernel v -> gal_init insh v P = Ok g ->
  (forall p q, exists a, gal_call g (Nd insh p) (Some (Nd insh q)) = Ok a /\ nat_ a [] = K p q) ->
  psd_kernel K.
Proof.
  intros insh v P t g K H1 H2 H3 H4 HP S PS HG HK. pose proof (interpolation_admissible insh v P t (conj H1 (conj H2 (conj H3 H4))) HP S) as HA.
  apply (C27_psd insh v P _ g K HA HG); [|exact HK]. intros l d. pose proof (joint_interpolation (pj_n P) v t l d S PS) as J.
  match type of J with (0 <= ?a)%R => match goal with |- (0 <= ?b)%R => replace b with a; [exact J|] end end.
  unfold joint_variance. f_equal; [f_equal; f_equal|].
  - apply (sum_ext (F := RF)). intros p _. f_equal. apply (dot_ext (F := RF)); [|reflexivity]. intros j Hj. now rewrite HP.
  - apply (bilinear_ext (F := RF)); try reflexivity. intros i j Hi Hj. now rewrite !HP.
Qed.
(** The same with all conclusions, on a concrete projection: linear interpolation between
    0 and 1 of the kernel [1 + x y + x^2 y^2] over the rationals. *)
Definition ex_basis : feature QcF := mkfeat [] [2] (fun x k => match k with [0] => fsub f1 (x []) | _ => x [] end) (fun _ => false).
Definition ex_proj : projection QcF := mkproj 0 [] 2 ex_basis 0 true (fun f i => f (fun _ => fnat i)).
Definition ex_kernel (x y : point QcF) : QcF := fadd (fadd f1 (fmul (x []) (y []))) (fmul (fmul (x []) (x [])) (fmul (y []) (y []))).
Example C27_ex_admissible : admissible [] ex_kernel ex_proj (fun _ => True) /\ basis_reproduced ex_proj (fun _ => True).
Proof.
  split.
  - apply (interpolation_admissible [] ex_kernel ex_proj (fun i _ => fnat i)); [repeat split|reflexivity|].
    intros x y. unfold ex_kernel. cbn [fadd fmul QcF]. rewrite (Qcanon.Qcmult_comm (x [])), (Qcanon.Qcmult_comm (Qcanon.Qcmult (x []) (x []))). reflexivity.
  - apply (interpolation_reproduces ex_proj (fun i _ => fnat i)); [reflexivity|]. intros i j Hi Hj. unfold ex_proj in *. cbn [pj_n] in *.
    destruct i as [|[|i]]; [| |lia]; (destruct j as [|[|j]]; [| |lia]); vm_compute; f_equal; apply Eqdep_dec.UIP_dec; repeat decide equality.
Qed.
(** At [(1/2, 1/2)]: prior variance 21/16, of the projection 3/2, covariance of the two
    11/8; the new variance is [3/2 + (21/16 - 2 * 11/8 + 3/2) = 25/16]. *)
Example C27_ex_value : exists g a, gal_init [] ex_kernel ex_proj = Ok g /\
  gal_call g (Nd [1] (fun _ => fdiv f1 (fnat 2))) None = Ok a /\ nshape a = [1] /\ nat_ a [0] = fdiv (fnat 25) (fnat 16).
Proof. do 2 eexists. split; [reflexivity|]. split; [reflexivity|]. split; [reflexivity|]. apply Qcanon.Qc_is_canon. vm_compute. reflexivity. Qed.

Print Assumptions C27_decomposition.
Print Assumptions C27_uncorrelated.
Print Assumptions C27_projection_second.
Print Assumptions C27_psd.
