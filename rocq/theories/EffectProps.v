(** C37: evaluating a covariance function any number of times. *)
From Coq Require Import List Reals Lra Lia Bool Arith FunctionalExtensionality.
From Verif Require Import Base NdArray PolyModel PolyClassModel PolyCalc FunExprModel KernelModel EffectModel PolyProps MaternPoly MaternProps.
Import ListNotations.
Open Scope R_scope.

(** What each request should return, whatever happened before. *)
Definition pure_value (m : matern) (objs : nat -> obj) (q : request) : R :=
  match q with Ev k x0 x1 => ceval (cov_of m (objs k)) x0 x1 | EvNone k x0 => cnone (cov_of m (objs k)) x0 end.
(** The request evaluates a directional derivative of the kernel itself at two points. *)
Definition touches (objs : nat -> obj) (q : request) : bool :=
  match q with Ev k _ _ => match objs k with BDir _ _ _ => true | _ => false end | EvNone _ _ => false end.

Section P.
Variables (m : matern) (shared : bool) (objs : nat -> obj).
Notation sh := (mt_shape m).
(** The caches hold what they should. *)
Definition cache_ok (o : obj) (c : cache) : Prop :=
  match o with
  | BMat => True
  | BDir v r _ => k_sd c = None \/ k_sd c = Some (Own (matdir_scaled m v r))
  | BDirDir v0 v1 _ _ =>
      (k_sd0 c = None \/ k_sd0 c = Some (fun i => mt_scale m i * v0 i)) /\
      (k_sd1 c = None \/ k_sd1 c = Some (fun i => mt_scale m i * v1 i)) /\
      (k_num c = None \/ k_num c = Some (matdirdir_inprod m v0 v1))
  | BUDirDir v0 v1 _ => k_num c = None \/ k_num c = Some (umatdirdir_prod m v0 v1)
  | BULap w _ _ => k_num c = None \/ k_num c = Some (umatlap_factor m w)
  | BULapLap w0 w1 _ => k_num c = None \/ k_num c = Some (umatlaplap_factor m w0 w1)
  | BUDirLap v w r _ => k_sd c = None \/ k_sd c = Some (Own (umatdirlap_scaled m v w r))
  end.
Definition inv (st : state) : Prop := sf st = mt_scale m /\ forall k, cache_ok (objs k) (caches st k).
Lemma inv_set st k c : inv st -> cache_ok (objs k) c -> inv (set_cache st k c).
Proof. intros [H1 H2] H. split; [exact H1|]. intros j. unfold set_cache. cbn [caches]. destruct (Nat.eqb_spec j k) as [->|]; auto. Qed.
Lemma get_num_ok st k f v : inv st -> v = f (mt_scale m) -> (k_num (caches st k) = None \/ k_num (caches st k) = Some v) ->
  (forall c, (k_num c = None \/ k_num c = Some v) -> k_sd0 c = k_sd0 (caches st k) -> k_sd1 c = k_sd1 (caches st k) -> cache_ok (objs k) c) ->
  inv (fst (get_num st k f)) /\ snd (get_num st k f) = v.
Proof.
  intros I E C X. unfold get_num. destruct (k_num (caches st k)) as [r|] eqn:En; cbn [fst snd].
  - split; [exact I|]. destruct C as [C|C]; [discriminate|]. now injection C.
  - destruct I as [I1 I2]. split; [|now rewrite I1, E]. apply inv_set; [split; assumption|]. apply X; cbn; auto. right. now rewrite I1, E.
Qed.
Lemma get_sd0_ok st k v0 v1 a b : inv st -> objs k = BDirDir v0 v1 a b ->
  inv (fst (get_sd0 st k v0)) /\ snd (get_sd0 st k v0) = fun i => mt_scale m i * v0 i.
Proof.
  intros I O. pose proof (proj2 I k) as C. rewrite O in C. destruct C as (C0 & C1 & C2). unfold get_sd0.
  destruct (k_sd0 (caches st k)) as [r|] eqn:En; cbn [fst snd].
  - split; [exact I|]. destruct C0 as [C|C]; [discriminate|]. now injection C.
  - destruct I as [I1 I2]. split; [|now rewrite I1]. apply inv_set; [split; assumption|]. rewrite O. cbn. rewrite I1. auto.
Qed.
Lemma get_sd1_ok st k v0 v1 a b : inv st -> objs k = BDirDir v0 v1 a b ->
  inv (fst (get_sd1 st k v1)) /\ snd (get_sd1 st k v1) = fun i => mt_scale m i * v1 i.
Proof.
  intros I O. pose proof (proj2 I k) as C. rewrite O in C. destruct C as (C0 & C1 & C2). unfold get_sd1.
  destruct (k_sd1 (caches st k)) as [r|] eqn:En; cbn [fst snd].
  - split; [exact I|]. destruct C1 as [C|C]; [discriminate|]. now injection C.
  - destruct I as [I1 I2]. split; [|now rewrite I1]. apply inv_set; [split; assumption|]. rewrite O. cbn. rewrite I1. auto.
Qed.
Lemma get_inprod_ok st k v0 v1 a b : inv st -> objs k = BDirDir v0 v1 a b ->
  inv (fst (get_inprod m st k v0 v1)) /\ snd (get_inprod m st k v0 v1) = matdirdir_inprod m v0 v1.
Proof.
  intros I O. unfold get_inprod. pose proof (proj2 I k) as C. rewrite O in C. destruct C as (_ & _ & C2).
  destruct (k_num (caches st k)) as [r|] eqn:En; cbn [fst snd].
  - split; [exact I|]. destruct C2 as [C|C]; [discriminate|]. now injection C.
  - pose proof (get_sd0_ok st k v0 v1 a b I O) as [J S0]. destruct (get_sd0 st k v0) as [st1 s0]. cbn [fst snd] in *.
    pose proof (get_sd1_ok st1 k v0 v1 a b J O) as [J' S1]. destruct (get_sd1 st1 k v1) as [st2 s1]. cbn [fst snd] in *. subst s0 s1.
    pose proof (proj2 J' k) as C. rewrite O in C. destruct C as (C0' & C1' & C2').
    apply get_num_ok; [exact J'|reflexivity|exact C2'|]. intros c Hn H0 H1. rewrite O. cbn. rewrite H0, H1. auto.
Qed.
Lemma step_ok st q : inv st -> shared = false \/ touches objs q = false ->
  inv (fst (step m shared objs st q)) /\ snd (step m shared objs st q) = pure_value m objs q.
Proof.
  intros I T. destruct q as [k x0 x1|k x0]; cbn [step pure_value touches] in *.
  - assert (D : sdiffs (sf st) x0 x1 = mt_diffs m x0 x1) by (unfold sdiffs, mt_diffs; now rewrite (proj1 I)).
    unfold eval. rewrite D. change (bnorm sh (mt_diffs m x0 x1)) with (mt_dist m x0 x1).
    pose proof (proj2 I k) as C. destruct (objs k) as [|v r q|v0 v1 a b|v0 v1 q|w r q|w0 w1 q|v w r q] eqn:O; cbn [cov_of ceval cache_ok] in *.
    + auto.
    + destruct T as [T|T]; [|discriminate]. unfold get_sd. rewrite T. destruct (k_sd (caches st k)) as [c|] eqn:En; cbn [fst snd].
      * split; [exact I|]. destruct C as [C|C]; [discriminate|]. injection C as ->. reflexivity.
      * split; [|unfold matdir_eval, matdir_scaled; cbn [deref]; now rewrite (proj1 I)]. apply inv_set; [exact I|]. rewrite O. cbn. right. rewrite (proj1 I). reflexivity.
    + pose proof (get_sd0_ok st k v0 v1 a b I O) as [J S0]. destruct (get_sd0 st k v0) as [st1 s0]. cbn [fst snd] in *.
      pose proof (get_sd1_ok st1 k v0 v1 a b J O) as [J' S1]. destruct (get_sd1 st1 k v1) as [st2 s1]. cbn [fst snd] in *.
      pose proof (get_inprod_ok st2 k v0 v1 a b J' O) as [J2 S2]. destruct (get_inprod m st2 k v0 v1) as [st3 ip]. cbn [fst snd] in *. subst. auto.
    + destruct (get_num_ok st k (fun s => squeeze sh (fun i => v0 i * v1 i * s i ^ 2)) (umatdirdir_prod m v0 v1) I eq_refl C) as [J S].
      { intros c H _ _. now rewrite O. }
      destruct (get_num _ _ _) as [st' c]. cbn [fst snd] in *. subst. auto.
    + destruct (get_num_ok st k (fun s => squeeze sh (fun i => w i * s i * s i)) (umatlap_factor m w) I eq_refl C) as [J S].
      { intros c H _ _. now rewrite O. }
      destruct (get_num _ _ _) as [st' c]. cbn [fst snd] in *. subst. auto.
    + destruct (get_num_ok st k (fun s => squeeze sh (fun i => w0 i * w1 i * s i ^ 4)) (umatlaplap_factor m w0 w1) I eq_refl C) as [J S].
      { intros c H _ _. now rewrite O. }
      destruct (get_num _ _ _) as [st' c]. cbn [fst snd] in *. subst. auto.
    + unfold get_sdl. destruct (k_sd (caches st k)) as [c|] eqn:En; cbn [fst snd].
      * split; [exact I|]. destruct C as [C|C]; [discriminate|]. injection C as ->. reflexivity.
      * split; [|unfold umatdirlap_eval, umatdirlap_scaled; cbn [deref]; now rewrite (proj1 I)]. apply inv_set; [exact I|]. rewrite O. cbn. right. rewrite (proj1 I). reflexivity.
  - unfold eval_none. pose proof (proj2 I k) as C. destruct (objs k) as [|v r q|v0 v1 a b|v0 v1 q|w r q|w0 w1 q|v w r q] eqn:O; cbn [cov_of cnone cache_ok] in *; auto.
    + pose proof (get_inprod_ok st k v0 v1 a b I O) as [J2 S2]. destruct (get_inprod m st k v0 v1) as [st3 ip]. cbn [fst snd] in *. subst. auto.
    + destruct (get_num_ok st k (fun s => squeeze sh (fun i => v0 i * v1 i * s i ^ 2)) (umatdirdir_prod m v0 v1) I eq_refl C) as [J S].
      { intros c H _ _. now rewrite O. }
      destruct (get_num _ _ _) as [st' c]. cbn [fst snd] in *. subst. auto.
    + destruct (get_num_ok st k (fun s => squeeze sh (fun i => w i * s i * s i)) (umatlap_factor m w) I eq_refl C) as [J S].
      { intros c H _ _. now rewrite O. }
      destruct (get_num _ _ _) as [st' c]. cbn [fst snd] in *. subst. auto.
    + destruct (get_num_ok st k (fun s => squeeze sh (fun i => w0 i * w1 i * s i ^ 4)) (umatlaplap_factor m w0 w1) I eq_refl C) as [J S].
      { intros c H _ _. now rewrite O. }
      destruct (get_num _ _ _) as [st' c]. cbn [fst snd] in *. subst. auto.
Qed.
Lemma run_ok st qs : inv st -> (forall q, In q qs -> shared = false \/ touches objs q = false) ->
  inv (fst (run m shared objs st qs)) /\ snd (run m shared objs st qs) = map (pure_value m objs) qs.
Proof.
  revert st. induction qs as [|q qs IH]; intros st I T; [auto|]. cbn [run map].
  pose proof (step_ok st q I (T q (or_introl eq_refl))) as [J R]. destruct (step m shared objs st q) as [st1 r]. cbn [fst snd] in *.
  pose proof (IH st1 J (fun q' H => T q' (or_intror H))) as [J' R']. destruct (run m shared objs st1 qs) as [st2 rs]. cbn [fst snd] in *. subst. auto.
Qed.
Lemma inv_start : inv (start m).
Proof. split; [reflexivity|]. intros k. cbn. destruct (objs k); cbn; auto. Qed.
End P.

(** With scalar lengthscales, every evaluation in every history returns the value of the
    covariance function. *)
Theorem C37_scalar_lengthscales : forall m objs qs, snd (run m false objs (start m) qs) = map (pure_value m objs) qs.
Proof. intros m objs qs. apply run_ok; [apply inv_start|auto]. Qed.
(** With an array of lengthscales, as long as no directional derivative of the kernel has been evaluated. *)
Theorem C37_before_directional : forall m objs qs, (forall q, In q qs -> touches objs q = false) ->
  snd (run m true objs (start m) qs) = map (pure_value m objs) qs.
Proof. intros m objs qs H. apply run_ok; [apply inv_start|auto]. Qed.
(** The first evaluation of a directional derivative still returns the right value, but leaves the scale
    factors of the kernel multiplied by the direction. *)
Theorem C37_first_directional : forall m objs qs k v r p x0 x1, (forall q, In q qs -> touches objs q = false) -> objs k = BDir v r p ->
  let '(st, rs) := run m true objs (start m) (qs ++ [Ev k x0 x1]) in
  rs = map (pure_value m objs) (qs ++ [Ev k x0 x1]) /\ sf st = matdir_scaled m v r.
Proof.
  intros m objs qs k v r p x0 x1 H O. destruct (run_ok m true objs (start m) qs (inv_start m objs)) as [I R]; [auto|].
  assert (A : forall st qs', run m true objs st (qs' ++ [Ev k x0 x1]) =
    (fst (step m true objs (fst (run m true objs st qs')) (Ev k x0 x1)), snd (run m true objs st qs') ++ [snd (step m true objs (fst (run m true objs st qs')) (Ev k x0 x1))])).
  { intros st qs'. revert st. induction qs' as [|q qs' IH]; intros st; cbn [run app].
    - cbn [fst snd app]. destruct (step m true objs st (Ev k x0 x1)). reflexivity.
    - destruct (step m true objs st q) as [st1 r1]. rewrite IH. destruct (run m true objs st1 qs'). reflexivity. }
  rewrite A, R, map_app. set (st := fst (run m true objs (start m) qs)) in *. cbn [map pure_value step]. rewrite O. cbn [cov_of ceval].
  unfold eval. rewrite O. pose proof (proj2 I k) as C. rewrite O in C. cbn [cache_ok] in C. unfold get_sd.
  assert (D : sdiffs (sf st) x0 x1 = mt_diffs m x0 x1) by (unfold sdiffs, mt_diffs; now rewrite (proj1 I)).
  destruct (k_sd (caches st k)) as [c|] eqn:En.
  - exfalso. destruct C as [C|C]; [discriminate|].
    assert (G : forall qs st0, (forall q, In q qs -> touches objs q = false) -> k_sd (caches st0 k) = None -> k_sd (caches (fst (run m true objs st0 qs)) k) = None).
    { clear - O. induction qs as [|q qs IH]; intros st0 T N; [exact N|]. cbn [run].
      assert (S : k_sd (caches (fst (step m true objs st0 q)) k) = None).
      { assert (T' : touches objs q = false) by (apply T; now left). clear T IH.
        assert (N0 : forall st j a, k_sd (caches st k) = None -> k_sd (caches (fst (get_sd0 st j a)) k) = None).
        { intros st j a H. unfold get_sd0. destruct (k_sd0 (caches st j)); [exact H|]. cbn. destruct (Nat.eqb_spec k j) as [->|]; exact H. }
        assert (N1 : forall st j a, k_sd (caches st k) = None -> k_sd (caches (fst (get_sd1 st j a)) k) = None).
        { intros st j a H. unfold get_sd1. destruct (k_sd1 (caches st j)); [exact H|]. cbn. destruct (Nat.eqb_spec k j) as [->|]; exact H. }
        assert (Nn : forall st j f, k_sd (caches st k) = None -> k_sd (caches (fst (get_num st j f)) k) = None).
        { intros st j a H. unfold get_num. destruct (k_num (caches st j)); [exact H|]. cbn. destruct (Nat.eqb_spec k j) as [->|]; exact H. }
        assert (Ni : forall st j a b, k_sd (caches st k) = None -> k_sd (caches (fst (get_inprod m st j a b)) k) = None).
        { intros st j a b H. unfold get_inprod. destruct (k_num (caches st j)); [exact H|]. specialize (N0 st j a H). destruct (get_sd0 st j a) as [s1 ?].
          specialize (N1 s1 j b N0). destruct (get_sd1 s1 j b) as [s2 ?]. now apply Nn. }
        destruct q as [j y0 y1|j y0]; cbn [step]; unfold eval, eval_none; cbn [touches] in T'; destruct (objs j) as [|v' r' q'|v0 v1 a b|v0 v1 q'|w r' q'|w0 w1 q'|v' w r' q'] eqn:Oj; try discriminate; try exact N.
        - specialize (N0 st0 j v0 N). destruct (get_sd0 st0 j v0) as [s1 ?]. specialize (N1 s1 j v1 N0). destruct (get_sd1 s1 j v1) as [s2 ?]. specialize (Ni s2 j v0 v1 N1). destruct (get_inprod m s2 j v0 v1). exact Ni.
        - match goal with |- context[get_num ?a ?b ?c] => specialize (Nn a b c N); destruct (get_num a b c); exact Nn end.
        - match goal with |- context[get_num ?a ?b ?c] => specialize (Nn a b c N); destruct (get_num a b c); exact Nn end.
        - match goal with |- context[get_num ?a ?b ?c] => specialize (Nn a b c N); destruct (get_num a b c); exact Nn end.
        - unfold get_sdl. destruct (k_sd (caches st0 j)); [exact N|]. cbn. destruct (Nat.eqb_spec k j) as [->|]; [congruence|exact N].
        - specialize (Ni st0 j v0 v1 N). destruct (get_inprod m st0 j v0 v1). exact Ni.
        - match goal with |- context[get_num ?a ?b ?c] => specialize (Nn a b c N); destruct (get_num a b c); exact Nn end.
        - match goal with |- context[get_num ?a ?b ?c] => specialize (Nn a b c N); destruct (get_num a b c); exact Nn end.
        - match goal with |- context[get_num ?a ?b ?c] => specialize (Nn a b c N); destruct (get_num a b c); exact Nn end. }
      destruct (step m true objs st0 q) as [st1 ?]. cbn [fst] in S.
      specialize (IH st1 (fun q' H => T q' (or_intror H)) S). destruct (run m true objs st1 qs). exact IH. }
    specialize (G qs (start m) H eq_refl). fold st in G. congruence.
  - cbn [fst snd deref set_sf sf]. rewrite D. split; [|unfold matdir_scaled; now rewrite (proj1 I)].
    unfold matdir_eval, matdir_scaled, mt_dist. now rewrite (proj1 I).
Qed.
(** Afterwards the values are wrong: the kernel of lengthscale 1 and smoothness 3/2 in one dimension,
    given as an array, and its derivative in direction 2.  The kernel evaluated before and after the derivative
    at the same points returns different values, and so does the derivative evaluated twice. *)
Definition bad_m : matern := Matern [1%nat] (fun _ => 1) (HalfInt 1).
Definition bad_objs (q : pypoly) (k : nat) : obj := match k with O => BMat | _ => BDir (fun _ => 2) true q end.
Definition px : array := fun _ => 1.
Definition py : array := fun _ => 0.
Lemma bsum1 (f : array) : bsum [1%nat] f = f [0%nat].
Proof. unfold bsum. cbn. apply Rplus_0_r. Qed.
Lemma bnorm1 s z : 0 < z -> s [0%nat] = z -> bnorm [1%nat] (sdiffs s px py) = z.
Proof.
  intros Hz H. unfold bnorm, bnorm_sq. rewrite bsum1. unfold sdiffs, vdiff, px, py. rewrite H.
  replace (((1 - 0) * z) ^ 2) with (Rsqr z) by (unfold Rsqr; ring). apply sqrt_Rsqr. lra.
Qed.
Theorem C37_refuted : exists q, mk_matdir bad_m (fun _ => 2) true = Ok (CMatDir bad_m (fun _ => 2) true q) /\
  (exists a b c, snd (run bad_m true (bad_objs q) (start bad_m) [Ev 0 px py; Ev 1 px py; Ev 0 px py]) = [a; b; c] /\ a <> c) /\
  (exists a b, snd (run bad_m true (bad_objs q) (start bad_m) [Ev 1 px py; Ev 1 px py]) = [a; b] /\ a <> b).
Proof.
  destruct (proj2 (odd_div 1 0) ltac:(lia)) as [q Hq]. change (2 * 0 + 1)%nat with 1%nat in Hq. exists q.
  split; [unfold mk_matdir; cbn [mt_nu bad_m]; now rewrite Hq|].
  assert (S : mt_scale bad_m [0%nat] = sqrt 3).
  { unfold mt_scale, bad_m. cbn [mt_len mt_nu nu_val]. unfold Rdiv. rewrite Rinv_1, Rmult_1_r. f_equal. simpl. field. }
  assert (S3 : 0 < sqrt 3) by (apply sqrt_lt_R0; lra). assert (SS : sqrt 3 * sqrt 3 = 3) by (apply sqrt_sqrt; lra).
  assert (V0 : forall z, E 1 0 z = 1 + z).
  { intros z. rewrite E_sum. cbn [sum_f_R0]. rewrite !mc_0. unfold c0. cbn. field. }
  assert (V : forall z, 0 < z -> py_eval q z = -1).
  { intros z Hz. destruct (py_floordiv_spec (matern_poly 1 1) 1 (matern_valid _ _)) as (X & _). pose proof (proj1 (proj2 (X q Hq)) z) as Y. clear X. fold (E 1 1 z) in Y.
    rewrite E_sum in Y. cbn [sum_f_R0] in Y. rewrite !mc_S, !mc_0 in Y. unfold c0 in Y. apply Rmult_eq_reg_r with z; [|lra].
    rewrite pow_1 in Y. rewrite Y. cbn. field. }
  pose proof (exp_ineq1 (sqrt 3) ltac:(lra)) as X1.
  assert (X2 : exp (- (2 * sqrt 3)) = exp (- sqrt 3) * / exp (sqrt 3)).
  { rewrite <- exp_Ropp, <- exp_plus. f_equal. ring. }
  assert (L0 : bnorm [1%nat] (sdiffs (mt_scale bad_m) px py) = sqrt 3) by now apply bnorm1.
  assert (L1 : bnorm [1%nat] (sdiffs (fun i => mt_scale bad_m i * 2) px py) = 2 * sqrt 3) by (apply bnorm1; [lra|rewrite S; ring]).
  assert (P : 0 < exp (- sqrt 3)) by apply exp_pos. assert (P' : 0 < / exp (sqrt 3)) by (apply Rinv_0_lt_compat, exp_pos).
  assert (I : / exp (sqrt 3) * exp (sqrt 3) = 1) by (apply Rinv_l, Rgt_not_eq, exp_pos).
  split.
  - exists ((1 + sqrt 3) * exp (- sqrt 3)). eexists. exists ((1 + 2 * sqrt 3) * exp (- (2 * sqrt 3))). split.
    + unfold run, step, eval, get_sd. cbn [bad_objs start caches k_sd no_cache set_cache set_sf sf snd mt_nu mt_shape bad_m].
      change (Matern [1%nat] (fun _ : index => 1) (HalfInt 1)) with bad_m. rewrite L0, L1. rewrite <- !V0. reflexivity.
    + rewrite X2. intros Y. rewrite (Rmult_comm _ (exp _)), (Rmult_comm _ (exp _ * _)), Rmult_assoc in Y. apply Rmult_eq_reg_l in Y; [|lra].
      assert (Z : (1 + sqrt 3) * exp (sqrt 3) = 1 + 2 * sqrt 3) by (rewrite Y; transitivity (/ exp (sqrt 3) * exp (sqrt 3) * (1 + 2 * sqrt 3)); [ring|rewrite I; ring]). nra.
  - exists (-6 * exp (- sqrt 3)), (-12 * exp (- (2 * sqrt 3))). split.
    + unfold run, step, eval, get_sd. cbn [bad_objs start caches k_sd no_cache set_cache set_sf sf snd mt_nu mt_shape bad_m Nat.eqb deref].
      change (Matern [1%nat] (fun _ : index => 1) (HalfInt 1)) with bad_m. rewrite L0, L1, !bsum1, !V by lra. unfold sdiffs, vdiff, px, py. rewrite S.
      f_equal; [|f_equal].
      * transitivity (-2 * exp (- sqrt 3) * (sqrt 3 * sqrt 3)); [ring|rewrite SS; ring].
      * transitivity (-4 * exp (- (2 * sqrt 3)) * (sqrt 3 * sqrt 3)); [ring|rewrite SS; ring].
    + rewrite X2. intros Y. assert (Z : exp (- sqrt 3) * 1 = exp (- sqrt 3) * (2 * / exp (sqrt 3))) by lra. apply Rmult_eq_reg_l in Z; [|lra]. assert (exp (sqrt 3) = 2); [|nra].
      transitivity (1 * exp (sqrt 3)); [ring|]. rewrite Z. transitivity (2 * (/ exp (sqrt 3) * exp (sqrt 3))); [ring|rewrite I; ring].
Qed.
Print Assumptions C37_scalar_lengthscales.
Print Assumptions C37_before_directional.
Print Assumptions C37_first_directional.
Print Assumptions C37_refuted.

(** A history with several objects that touches no directional derivative at two points. *)
Example C37_example : forall q a b, let objs := fun k => match k with O => BMat | 1%nat => BDirDir px px a b | _ => BDir px true q end in
  forall r, In r [Ev 0 px py; Ev 1 px py; EvNone 2 px; Ev 1 py px] -> touches objs r = false.
Proof. intros q a b objs r [<-|[<-|[<-|[<-|[]]]]]; reflexivity. Qed.
