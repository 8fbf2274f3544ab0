(** Densities of truncated Gaussian mixtures (C55). *)
From Coq Require Import List Arith ZArith Reals Lra Lia.
From Coquelicot Require Import Coquelicot.
From Verif Require Import Base NdArray NdData DomainModel CrossModel ShapedModel ShapedSpec ShapedProofs MixtureModel MixtureSpec MixtureProofs.
Import ListNotations.
Local Open Scope R_scope.

(** The distribution function used: its derivative is the density, which is symmetric. *)
Theorem C55_distribution x : is_derive norm_cdf x (exp (- x ^ 2 / 2) / sqrt (2 * PI)) /\ norm_cdf (- x) = 1 - norm_cdf x.
Proof.
  split; [evar_last; [apply cdf_derive|]; unfold std_density, Rdiv; apply Rmult_comm|].
  unfold norm_cdf. assert (E : RInt std_density 0 (- x) = - RInt std_density 0 x).
  { assert (I : forall a b, is_RInt std_density a b (RInt std_density a b)).
    { intros a b. apply (RInt_correct (V := R_CompleteNormedModule)), ex_RInt_continuous. intros; apply std_density_cont. }
    pose proof (I (- 0) (- x)) as I1. apply (is_RInt_comp_opp (V := R_NormedModule)) in I1.
    pose proof (is_RInt_opp (V := R_NormedModule) _ _ _ _ (I 0 x)) as I2.
    rewrite <- Ropp_0 at 1. rewrite <- (is_RInt_unique _ _ _ _ I1). apply is_RInt_unique.
    apply (is_RInt_ext (fun y => opp (std_density y))); [|exact I2].
    intros t _. unfold std_density. now replace ((- t) ^ 2) with (t ^ 2) by ring. }
  rewrite E. field.
Qed.

(** At every point of a batch of any shape the function is the equally weighted average of
    the normal densities, each divided by its integral over the interval. *)
Theorem C55_value dt lo hi means stds n mu sigma : lo < hi -> components means stds n mu sigma ->
  exists m f, mk_mixture (DLDomain (Interval dt lo hi)) means stds = Ok (m, f) /\ fn_in f = [] /\ fn_out f = [] /\
    vectorises [] [] (fn_call f) (fun p _ => mixture_density lo hi n mu sigma (p [])).
Proof.
  intros L [Hn [Pm [Ps [Hd Hs]]]]. eexists. eexists. split; [reflexivity|]. split; [reflexivity|]. split; [reflexivity|].
  set (m := mkmix lo hi means stds).
  refine (call_vect (mkfn [] [] (mix_eval m) None) _ _). cbn [fn_in fn_out fn_ev].
  intros x batch Ex. rewrite app_nil_r in Ex.
  destruct (mix_row m x batch n mu sigma Ex Pm Ps Hn Hd) as [p [z [r [Ep [Ez [Er [_ [Sr Vr]]]]]]]].
  unfold mix_eval. rewrite Ep. cbn [bind]. rewrite Ez. cbn [bind]. rewrite Er. cbn [bind].
  unfold mean_last. rewrite Sr. cbn [lshape]. rewrite rev_app_distr. cbn [rev app]. destruct n as [|n']; [lia|].
  eexists. split; [reflexivity|]. cbn [nshape]. rewrite rev_involutive. split; [now rewrite app_nil_r|].
  intros b j Hb Hj. apply valid_index_nil in Hj. subst j. cbn [nat_]. rewrite !app_nil_r. unfold mixture_density.
  change (@fdiv RF) with Rdiv. f_equal. unfold fsum. change (@fadd RF) with Rplus. change (@f0 RF) with 0.
  f_equal. apply map_ext_in. intros k Hk. apply in_seq in Hk.
  rewrite <- (component_truncated lo hi (mu k) (sigma k) (nat_ x b)) by (try exact L; apply Hs; lia).
  specialize (Vr b k Hb ltac:(lia)). cbn [mx_lo mx_hi m] in Vr. rewrite <- Vr. cbn [lidx]. f_equal.
  destruct (Nat.eqb_spec (S n') 1); [|reflexivity]. replace k with 0%nat by lia. reflexivity.
Qed.
(** A pair of numbers is taken as the interval between them. *)
Theorem C55_domain_pair lo hi means stds : lo <= hi ->
  exists m f, mk_mixture (DLSeq [mkarray F64 [] [lo]; mkarray F64 [] [hi]]) means stds = Ok (m, f) /\
    mk_mixture (DLDomain (Interval F64 lo hi)) means stds = Ok (m, f).
Proof.
  intros L. unfold mk_mixture, asdomain, mk_interval. cbn. unfold Rltb. destruct (Rlt_dec hi lo); [lra|]. cbn. eauto.
Qed.
(** The average integrates to one over the interval ... *)
Theorem C55_normalised lo hi n mu sigma : (0 < n)%nat -> lo < hi -> (forall k, (k < n)%nat -> sigma k <> 0) ->
  is_RInt (mixture_density lo hi n mu sigma) lo hi 1.
Proof. intros. now apply mixture_RInt. Qed.
(** ... so the values of the function do. *)
Theorem C55_total_mass dt lo hi means stds n mu sigma m f : lo < hi -> components means stds n mu sigma ->
  mk_mixture (DLDomain (Interval dt lo hi)) means stds = Ok (m, f) ->
  exists g : R -> R, (forall t, exists a, fn_call f (Nd [] (fun _ => t)) = Ok a /\ nshape a = [] /\ nat_ a [] = g t) /\
    (forall t, 0 < g t) /\ is_RInt g lo hi 1.
Proof.
  intros L C E. destruct (C55_value dt lo hi means stds n mu sigma L C) as [m' [f' [E' [_ [_ V]]]]].
  rewrite E' in E. injection E as <- <-. exists (mixture_density lo hi n mu sigma).
  destruct C as [Hn [_ [_ [_ Hs]]]]. split; [|split].
  - intros t. destruct (V (Nd [] (fun _ => t)) [] eq_refl) as [a [Ea [Sa Va]]]. exists a. split; [exact Ea|]. split; [exact Sa|].
    exact (Va [] [] (Forall2_nil _) (Forall2_nil _)).
  - intros t. now apply mixture_pos.
  - now apply mixture_RInt.
Qed.
(** The truncated density is zero outside of the interval; the function is not, at any
    point. *)
Theorem C55_outside_refuted dt lo hi means stds n mu sigma m f t : lo < hi -> components means stds n mu sigma ->
  mk_mixture (DLDomain (Interval dt lo hi)) means stds = Ok (m, f) -> t < lo \/ hi < t ->
  exists a, fn_call f (Nd [] (fun _ => t)) = Ok a /\ nat_ a [] <> 0.
Proof.
  intros L C E _. destruct (C55_total_mass dt lo hi means stds n mu sigma m f L C E) as [g [V [P _]]].
  destruct (V t) as [a [Ea [_ Va]]]. exists a. split; [exact Ea|]. rewrite Va. apply Rgt_not_eq, P.
Qed.
(** Other domains are refused. *)
Theorem C55_domain d means stds : (forall dt l u, d <> Interval dt l u) -> mk_mixture (DLDomain d) means stds = Err TypeError.
Proof. intros H. unfold mk_mixture, asdomain. cbn [bind]. destruct d; try reflexivity. now destruct (H dt l u). Qed.
(** There is no JAX implementation. *)
Theorem C55_no_jax d means stds m f x : mk_mixture d means stds = Ok (m, f) -> fn_jax f x = Err AttributeError.
Proof.
  unfold mk_mixture. destruct (asdomain d) as [dom|]; [|discriminate]. cbn [bind]. destruct dom; try discriminate. intros [= <- <-]. reflexivity.
Qed.

(** ** Examples *)
(** Two means, one standard deviation. *)
Example C55_ex_components : components (Nd [2%nat] (fun i => INR (nth 0 i 0%nat))) (Nd [] (fun _ => 3)) 2 INR (fun _ => 3).
Proof.
  split; [lia|]. split; [left; split; [reflexivity|reflexivity]|]. split; [right; split; reflexivity|]. split; [right; now left|].
  intros _ _. lra.
Qed.
(** A single component around 0 on [-1, 1], with a negative standard deviation: only its
    absolute value matters. *)
Example C55_ex_sign t : truncated_density (-1) 1 0 (-2) t = truncated_density (-1) 1 0 2 t.
Proof.
  assert (E : forall s, normal_density 0 (-2) s = normal_density 0 2 s) by (intros s; unfold normal_density; now replace ((-2) ^ 2) with (2 ^ 2) by ring).
  unfold truncated_density. rewrite E. f_equal. apply RInt_ext. intros s _. apply E.
Qed.
