(** C44: linear functionals. *)
From Coq Require Import List Reals Lra Lia Bool Arith FunctionalExtensionality.
From Coquelicot Require Import Coquelicot.
From Verif Require Import Base NdArray NdData BlockModel CovModel CrossModel CrossProofs CrossFun PolyClassModel PolyCalc FunExprModel FunExprProofs
  DiffopModel DiffopSpec DiffopProofs LfoModel LfoSpec LfoSmooth LfoProofs LfoSound LfoTotal LfoAlg FunctlModel FunctlSpec FunctlProofs FunctlAlg FunctlTotal.
Import ListNotations.
Open Scope R_scope.

(** Expressions over functionals: built when the shapes fit, and what they return on a
    function has the right shape and entries. *)
Theorem C44_expressions : forall e i o, fty e i o ->
  exists L, fbuild e = Ok L /\ lwf L /\ l_in L = i /\ l_out L = o /\
    forall n f v, fwf f -> fsm f -> (in_shape f, out_shape f) = i -> lcall n L f = Ok v ->
      nshape v = o /\ forall r, valid_index o r -> nat_ v r = fmeaning e (feval f) r.
Proof.
  intros e i o T. destruct (fbuild_ok e i o T) as (L & B & W & Ei & Eo & V). exists L.
  split; [exact B|]. split; [exact W|]. split; [exact Ei|]. split; [exact Eo|]. intros n f v Wf Sf E H.
  destruct (lcall_sound n L f v W Wf Sf) as (Sv & Vv); [congruence|exact H|]. split; [congruence|].
  intros r Hr. rewrite Vv by (rewrite Eo; exact Hr). apply V; [|exact Hr].
  apply (is_fn_smooth i (feval f) f). split; [exact Wf|]. split; [exact Sf|]. split; [exact E|reflexivity].
Qed.
(** They do return, on functions without scaled summands, unless an integral is taken of
    a scaled function or of one with several outputs. *)
Theorem C44_total : forall L f, ltot L -> lwf L -> fwf f -> fsm f -> unscaled f -> (in_shape f, out_shape f) = l_in L ->
  exists n v, lcall n L f = Ok v /\ forall m, (n <= m)%nat -> lcall m L f = Ok v.
Proof.
  intros L f T W Wf Sf U E. destruct (ltot_total L T W f Wf Sf U E) as (n & v & H). exists n, v. split; [exact H|].
  intros m Hm. now apply (lcall_more n).
Qed.
(** Point evaluations and projections, and combinations of them, return on every function. *)
Theorem C44_direct_total : forall L f, direct L -> lwf L -> fwf f -> fsm f -> (in_shape f, out_shape f) = l_in L ->
  exists n v, lcall n L f = Ok v.
Proof. intros L f D W Wf Sf E. now apply direct_total. Qed.
(** Everything else is refused when it is built. *)
Theorem C44_shape_mismatch : forall e, fleaves e ->
  (exists i o, fty e i o) \/ fbuild e = Err AssertionError \/ fbuild e = Err ValueError.
Proof.
  intros e D. destruct (fbuild e) as [L|ex] eqn:E; [left; eauto using fbuild_typed|]. right.
  destruct (fbuild_err e ex E D) as [-> | ->]; auto.
Qed.
Theorem C44_add_mismatch : forall L M, l_in L <> l_in M \/ l_out L <> l_out M -> l_add L M = Err AssertionError.
Proof. exact l_add_err. Qed.
Theorem C44_operator_mismatch : forall L M, lwf L -> wfo M -> o_out M <> l_in L -> l_matmul L M = Err AssertionError.
Proof. exact l_matmul_err. Qed.
Theorem C44_matrix_mismatch : forall A L, lwf L -> l_out L <> [ncols A] ->
  l_rmatmul A L = Err (match L with LComp (Some _) _ _ => ValueError | _ => AssertionError end).
Proof. exact l_rmatmul_err. Qed.
(** Scalings of scalings, matrices of matrices and operators of operators are merged into
    one object. *)
Theorem C44_merged : forall s t L A B AB M N MN,
  (forall u L', L <> LScaled u L') -> (forall C L' P, L <> LComp C L' P) -> lwf L -> wfo M -> wfo N ->
  l_out L = [ncols B] -> mat_mul A B = Ok AB -> o_out M = l_in L -> o_matmul M N = Ok MN -> o_out MN = o_out M ->
  l_scale s (l_scale t L) = LScaled (s * t) L /\
  bind (l_rmatmul B L) (l_rmatmul A) = Ok (LComp (Some AB) L None) /\
  bind (l_matmul L M) (fun P => l_matmul P N) = Ok (LComp None L (Some MN)) /\
  bind (l_matmul L M) (l_rmatmul B) = Ok (LComp (Some B) L (Some M)) /\
  bind (l_rmatmul B L) (fun P => l_matmul P M) = Ok (LComp (Some B) L (Some M)).
Proof.
  intros s t L A B AB M N MN N1 N2 W WM WN EB HAB EM HMN EMN.
  assert (R1 : l_rmatmul B L = Ok (LComp (Some B) L None)).
  { destruct L as [| | | | | |C L' P]; try (apply mk_lcomp_ok; [discriminate|intros D [= <-]; exact EB]). now destruct (N2 C L' P). }
  assert (R2 : l_matmul L M = Ok (LComp None L (Some M))).
  { destruct L as [| | | | | |C L' P]; try (apply mk_lcomp_ok; [intros D [= <-]; exact EM|discriminate]). now destruct (N2 C L' P). }
  rewrite R1, R2. cbn [bind l_rmatmul l_matmul]. rewrite HAB, HMN. cbn [bind].
  assert (CAB : ncols AB = ncols B) by (unfold mat_mul in HAB; destruct (_ =? _)%nat; [now injection HAB as <-|discriminate]).
  split; [destruct L; try reflexivity; now destruct (N1 s0 L)|]. repeat split; apply mk_lcomp_ok; intros D; try discriminate; intros [= <-]; congruence.
Qed.
(** Values of functionals that are given by what they do. *)
Theorem C44_integral_of_vector : forall n a b d cod g, lcall (S n) (LInt a b (d :: cod)) (FOther [] (d :: cod) g) = Err NotImplementedError.
Proof. reflexivity. Qed.
Theorem C44_integral_of_constant : forall n a b cod v, exists w, lcall (S n) (LInt a b cod) (FConst [] cod v) = Ok w /\
  nshape w = cod /\ forall r, nat_ w r = v r * (b - a).
Proof. intros n a b cod v. eexists. split; [reflexivity|]. split; reflexivity. Qed.
Theorem C44_integral_domain : forall n a b i g, i <> [] -> lcall (S n) (LInt a b []) (FOther i [] g) = Err ValueError.
Proof. intros n a b i g Hi. destruct i; [congruence|reflexivity]. Qed.
Theorem C44_weak_form : forall n m i o g, lcall (S n) (LWeak m) (FOther i o g) = Err NotImplementedError.
Proof. reflexivity. Qed.

(** Integrals and weak forms of a scaled function recurse forever; so does the integral of
    what a scaled operator returns. *)
Theorem C44_scaled_function_refuted : forall n c f,
  (forall a b cod, lcall n (LInt a b cod) (FScaled c f) = Err RecursionError) /\
  (forall m, lcall n (LWeak m) (FScaled c f) = Err RecursionError).
Proof. intros n c f. split; intros; [apply int_scaled|apply weak_scaled]. Qed.
Theorem C44_scaled_operator_refuted : forall n a b d s g, dtotal d -> d_dom d = [] ->
  lcall n (LComp None (LInt a b []) (Some (OScaled s (ODiff d)))) (FOther [] [] g) = Err RecursionError.
Proof.
  intros n a b d s g T Ed. destruct n as [|n]; [reflexivity|]. cbn [lcall].
  assert (E : call n (OScaled s (ODiff d)) (FOther [] [] g) = Err RecursionError \/
    exists h, call n (OScaled s (ODiff d)) (FOther [] [] g) = Ok (FScaled s h)).
  { destruct n as [|n]; [now left|].
    destruct (leaf_total d (FOther [] [] g) T eq_refl eq_refl (eq_sym Ed) eq_refl) as (h & Hh & _ & Ho).
    destruct (Ho eq_refl) as [h' ->]. cbn [call]. destruct (call_cases 6 _ _ _ Hh n) as [-> | ->]; [now left|]. right. cbn. eauto. }
  destruct E as [-> | [h ->]]; cbn [bind]; [reflexivity|]. now rewrite int_scaled.
Qed.
(** The weak form of the zero function has the wrong shape. *)
Theorem C44_zero_shape_refuted : forall n m, exists v, lcall (S n) (LWeak m) (FZero [] []) = Ok v /\ nshape v = [] /\ nshape v <> l_out (LWeak m).
Proof. intros n m. eexists. split; [reflexivity|]. split; [reflexivity|discriminate]. Qed.

(** Non-vacuity: f(x) = 1 + 3 x^2, the functional 2 (f(1) - f(0)) - f'(2). *)
Definition ex_f : fn := FPoly (PFloat [1; 0; 3]).
Lemma ex_f_eval x : feval ex_f x [] = 1 + 3 * (x [] * x []).
Proof. cbn. unfold py_eval. cbn. ring. Qed.
Definition ex_pts : nd RF := Nd [2%nat] (fun i => INR (hd 0%nat i)).
Definition ex_pt2 : nd RF := Nd [1%nat] (fun _ => 2).
Definition ex_A : @mat RF := @mkmat RF 1 2 (fun _ j => match j with 0%nat => -1 | _ => 1 end).
Definition ex_d : dop := DPartial (unit_mi [] [] 1).
Definition ex_e : fexpr := ESub (EScale 2 (EPost ex_A (EDirac [] [] ex_pts))) (EPre (EEval [] [] ex_pt2) (XDiff ex_d)).
Example C44_example : exists L n v, fbuild ex_e = Ok L /\ lcall n L ex_f = Ok v /\ nshape v = [1%nat] /\ nat_ v [0%nat] = -6.
Proof.
  assert (Wd : dwf ex_d) by (split; [reflexivity|cbn; lia]).
  assert (T : fty ex_e ([], []) [1%nat]).
  { apply ft_sub; [apply ft_scale; apply (ft_post ex_A)|].
    - exact (ft_dirac [] [] ex_pts [2%nat] eq_refl).
    - apply (ft_pre _ _ _ ([], [])); [exact (ft_eval [] [] ex_pt2 [1%nat] eq_refl)|exact (ty_diff ex_d Wd)]. }
  destruct (C44_expressions _ _ _ T) as (L & B & W & Ei & Eo & V).
  assert (Wf : fwf ex_f) by (apply wf_poly; cbn; try discriminate; auto).
  assert (Sf : fsm ex_f) by (intros i g [[=]|[]]).
  destruct (C44_total L ex_f) as (n & v & Hv & _); auto.
  - cbn in B. injection B as <-. apply lt_sum. intros M [<-|[<-|[]]].
    + apply lt_scaled, lt_direct, di_comp, di_ev.
    + apply lt_scaled, lt_comp_plain; [apply lt_direct, di_ev|]. apply pl_diff. exact Wd.
  - now apply unscaled_one.
  - exists L, n, v. split; [exact B|]. split; [exact Hv|]. destruct (V n ex_f v Wf Sf eq_refl Hv) as [Sv Vv]. split; [exact Sv|].
    rewrite (Vv [0%nat]) by (apply valid1; lia). cbn [fmeaning ex_e ex_A ncols entry hd length Nat.sub firstn skipn omeaning ex_d dsem].
    rewrite pderiv_unit by constructor. cbn [seq map]. unfold total. cbn [fold_right Nat.iter].
    assert (D : pd [] (fun y => feval ex_f y []) (point_at ex_pt2 [0%nat]) = 12).
    { rewrite (functional_extensionality (fun y => feval ex_f y []) (fun y => 1 + 3 * (y [] * y [])) ex_f_eval).
      apply pd_eq. cbn. auto_derive; [exact I|]. ring. }
    change (Nat.iter 1 (pd []) (fun y => feval ex_f y []) (point_at ex_pt2 [0%nat])) with (pd [] (fun y => feval ex_f y []) (point_at ex_pt2 [0%nat])).
    rewrite D, !ex_f_eval. cbn. ring.
Qed.
Print Assumptions C44_expressions.
Print Assumptions C44_total.
Print Assumptions C44_shape_mismatch.
Print Assumptions C44_scaled_operator_refuted.
