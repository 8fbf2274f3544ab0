(** C73: evaluations are accurate up to rounding. *)
From Coq Require Import List Reals Bool Arith ZArith Lia Lra QArith Qcanon.
From Coq.Floats Require Import SpecFloat.
From Flocq Require Import Core BinarySingleNaN.
From Verif Require Import Base NdArray PolyModel PolyClassModel FunExprModel DiffopModel LfoModel KernelModel WendlandModel PdeModel AdModel AdSpec AdKernels AdProps AdCovModel AdCovSpec AdCovProofs FloatModel FloatRoundSpec FloatRound FloatErr.
Import ListNotations.
Open Scope R_scope.

(** ** Rounding *)
(** [rnd64] goes to a nearest number of the format, and a finite number of the format stays. *)
Lemma val_format a : valid a -> generic_format radix2 (FLT_exp (-1074) 53) (val a).
Proof. intros V. destruct (of_valid a V) as [b ->]. unfold val. rewrite SF2R_B2SF. apply generic_format_B2R. Qed.
Theorem C73_nearest : forall x a, valid a -> fin a -> Rabs (rnd64 x - x) <= Rabs (val a - x) /\ rnd64 (val a) = val a.
Proof.
  intros x a V _. assert (G := val_format a V). assert (VE : Valid_exp (FLT_exp (-1074) 53)) by (apply FLT_exp_valid; reflexivity). split.
  - exact (proj2 (round_N_pt radix2 (FLT_exp (-1074) 53) (fun t => negb (Z.even t)) x) _ G).
  - apply round_generic; [apply valid_rnd_N|exact G].
Qed.
Theorem C73_unit_roundoff : forall x, Rabs (rnd64 x - x) <= u64 * Rabs x + eta64.
Proof. exact rnd_error. Qed.

(** Every primitive is correctly rounded: its result is the rounded exact result, and infinite only
    if that is too large. *)
Theorem C73_primitives : forall lb x y p q, let run := run64 lb x y in
  valid (run p) -> valid (run q) -> fin (run p) -> fin (run q) ->
  (fin (run (PAdd p q)) <-> no_overflow (val (run p) + val (run q))) /\
  (fin (run (PAdd p q)) -> val (run (PAdd p q)) = rnd64 (val (run p) + val (run q))) /\
  (fin (run (PSub p q)) <-> no_overflow (val (run p) - val (run q))) /\
  (fin (run (PSub p q)) -> val (run (PSub p q)) = rnd64 (val (run p) - val (run q))) /\
  (fin (run (PMul p q)) <-> no_overflow (val (run p) * val (run q))) /\
  (fin (run (PMul p q)) -> val (run (PMul p q)) = rnd64 (val (run p) * val (run q))) /\
  (val (run q) <> 0 -> fin (run (PDiv p q)) <-> no_overflow (val (run p) / val (run q))) /\
  (val (run q) <> 0 -> fin (run (PDiv p q)) -> val (run (PDiv p q)) = rnd64 (val (run p) / val (run q))) /\
  (0 <= val (run p) -> fin (run (PSqrt p)) /\ val (run (PSqrt p)) = rnd64 (sqrt (val (run p)))) /\
  val (run (PNeg p)) = - val (run p) /\
  (fin (run (PPow p 2)) -> val (run (PPow p 2)) = rnd64 (val (run p) ^ 2)) /\
  (forall r, run (PWhere p q r) = if Rle_dec (val (run p)) 1 then run q else run r).
Proof.
  intros lb x y p q run Vp Vq Fp Fq. unfold run, run64 in *. cbn [frun].
  destruct (add_ok _ _ Vp Vq) as [A1 A2], (sub_ok _ _ Vp Vq) as [S1 S2], (mul_ok _ _ Vp Vq) as [M1 M2].
  split; [tauto|]. split; [exact A2|]. split; [tauto|]. split; [exact S2|]. split; [tauto|]. split; [exact M2|].
  split; [intros N; apply (div_ok _ _ Vp Vq Fp N)|]. split; [intros N; apply (div_ok _ _ Vp Vq Fp N)|].
  split; [intros N; now apply sqrt_ok|]. split; [apply opp_val|]. split.
  - cbn [fpow fpow_pos]. intros F. rewrite (proj2 (mul_ok _ _ Vp Vp) F). f_equal. ring.
  - intros r. rewrite (leb_ok _ Vp Fp). destruct (Rle_dec (val (frun 53 1024 lb x y p)) 1) as [L|L]; [rewrite Rle_bool_true by exact L|rewrite Rle_bool_false by lra]; reflexivity.
Qed.

(** ** Polynomials *)
(** [Polynomial]: Horner's method with correctly rounded coefficients, relative to the polynomial of
    the absolute values. *)
Theorem C73_horner : forall lb cs p (x y : farr),
  cs <> [] -> List.Forall (fun c => valid (l_cst lb c)) cs -> valid (run64 lb x y p) -> fin (run64 lb x y (horner_prog cs p)) ->
  Rabs (val (run64 lb x y (horner_prog cs p)) - poly_at (map (fun c => val (l_cst lb c)) cs) (val (run64 lb x y p)))
  <= horner_bound (map (fun c => val (l_cst lb c)) cs) (val (run64 lb x y p)).
Proof.
  intros lb cs p x y N V Vx F. unfold run64 in *. rewrite frun_horner in * by exact N.
  replace (map (fun c => val (l_cst lb c)) cs) with (map val (map (l_cst lb) cs)) by apply map_map.
  apply fhorner_bound; auto; [|now destruct cs]. clear - V. induction V; constructor; auto.
Qed.
Lemma poly_at_pos cs x : List.Forall (fun c => 0 <= c) cs -> 0 <= x -> poly_at (map Rabs cs) (Rabs x) = poly_at cs x.
Proof. intros H Hx. rewrite (Rabs_pos_eq x Hx). induction H as [|c cs Hc H IH]; [reflexivity|]. cbn [map poly_at]. now rewrite IH, Rabs_pos_eq. Qed.
(** Without cancellation the error is relative to the value: coefficients and point not negative, as
    in Matérn covariance functions. *)
Theorem C73_horner_relative : forall lb cs (x : farr) (y : farr),
  cs <> [] -> (forall c, In c cs -> valid (l_cst lb c) /\ val (l_cst lb c) = c /\ 0 <= c) -> valid (x []) -> 0 <= val (x []) ->
  let r := run64 lb x y (horner_prog cs (PVar false [])) in let n := (length cs - 1)%nat in fin r ->
  Rabs (val r - poly_at cs (val (x [])))
  <= ((1 + u64) ^ (2 * n) - 1) * poly_at cs (val (x [])) + eta64 * ((2 + u64) * geometric n ((1 + u64) ^ 2 * val (x []))).
Proof.
  intros lb cs x y N H Vx Px r n F.
  assert (M : map (fun c => val (l_cst lb c)) cs = cs) by (rewrite <- (map_id cs) at 2; apply map_ext_in; intros c Hc; apply (H c Hc)).
  assert (B := C73_horner lb cs (PVar false []) x y N ltac:(apply List.Forall_forall; intros c Hc; apply (H c Hc)) Vx F).
  rewrite M in B. change (run64 lb x y (PVar false [])) with (x []) in B. unfold horner_bound in B.
  rewrite poly_at_pos in B; [|apply List.Forall_forall; intros c Hc; apply (H c Hc)|exact Px]. now rewrite (Rabs_pos_eq _ Px) in B.
Qed.

(** ** Programs and covariance functions *)
Theorem C73_program : forall lb ue (x y : farr) p,
  accurate lb ue -> (forall i, valid (x i)) -> (forall i, valid (y i)) ->
  in_scope u64 eta64 ue (exactly x y) p -> all_fin lb x y p ->
  Rabs (val (run64 lb x y p) - pval (exactly x y) p) <= err u64 eta64 ue (exactly x y) p.
Proof. intros lb ue x y p A Hx Hy S F. now apply prog_error. Qed.
(** The bound vanishes in exact arithmetic *)
Theorem C73_exact : forall e p, err 0 0 0 e p = 0.
Proof.
  assert (R0 : forall v, rounded 0 0 0 v = 0) by (intros; unfold rounded; ring).
  assert (M0 : forall a b, mul_err a 0 b 0 = 0) by (intros; unfold mul_err; ring).
  intros e. induction p; cbn [err]; rewrite ?IHp, ?IHp1, ?IHp2, ?IHp3, ?M0, ?Rplus_0_r, ?R0; auto.
  - replace (_ / _) with 0; [apply R0|]. unfold Rdiv. ring.
  - rewrite exp_0. ring.
  - rewrite sqrt_0. apply R0.
  - now destruct (Rle_dec _ 1).
Qed.

(** Lengthscales of ExpQuad covariance functions are not below the smallest positive number. *)
Fixpoint lengths_ok (c : cov) : Prop :=
  match c with
  | CExpDir e _ _ | CExpDirDir e _ _ => forall i, In i (all_indices (eq_shape e)) -> 2 * eta64 <= Rabs (eq_len e i)
  | CScaled _ c => lengths_ok c
  | CSum cs => (fix go cs := match cs with [] => True | c :: cs' => lengths_ok c /\ go cs' end) cs
  | _ => True
  end.
Section Scope.
Variables (ue : R) (e : points).
Notation ok := (in_scope u64 eta64 ue e).
Lemma s_psum l : (forall p, In p l -> ok p) -> ok (psum l).
Proof. intros H. induction l as [|p l IH]; [exact I|]. split; [apply H; now left|]. apply IH. intros q Hq. apply H. now right. Qed.
Lemma s_pbsum sh f : (forall i, In i (all_indices sh) -> ok (f i)) -> ok (pbsum sh f).
Proof. intros H. apply s_psum. intros p Hp. apply in_map_iff in Hp as (i & <- & Hi). auto. Qed.
Lemma s_pproj sh a : ok (pproj sh a).
Proof. apply s_pbsum. intros; cbn; tauto. Qed.
Lemma s_horner cs p : ok p -> ok (horner_prog cs p).
Proof.
  intros H. unfold horner_prog. generalize (rev (seq 0 (length cs - 1))). intros l. generalize (I : ok (PCst (nth (length cs - 1) cs 0))).
  generalize (PCst (nth (length cs - 1) cs 0)). induction l as [|k l IH]; intros q Hq; [exact Hq|]. cbn [fold_left]. apply IH. cbn; tauto.
Qed.
Lemma s_sqdist sh s : ok (sqdist_prog sh s).
Proof. apply s_pbsum. intros; cbn; tauto. Qed.
Lemma s_len e0 : (forall i, In i (all_indices (eq_shape e0)) -> 2 * eta64 <= Rabs (eq_len e0 i)) -> ok (pexp_len e0).
Proof.
  intros H. split; [exact I|]. apply s_pbsum. intros i Hi. cbn. unfold rounded. assert (E : 0 < eta64) by (apply Rinv_0_lt_compat, pow_lt; lra).
  specialize (H i Hi). assert (U : u64 <= / 4). { unfold u64. apply Rinv_le_contravar; [lra|]. replace 4 with (2 ^ 2) by ring. apply Rle_pow; [lra|lia]. }
  repeat split; auto. assert (0 <= u64) by apply u_pos. nra.
Qed.
Lemma s_scale e0 : ok (pexp_scale e0).
Proof. apply (s_pbsum (eq_shape e0)). intros; cbn; tauto. Qed.
Lemma s_lap e0 w : ok (explap_prog e0 w).
Proof. split; [split; [|exact I]|apply s_scale]. apply s_pbsum. intros; cbn; tauto. Qed.
Lemma s_mt_proj m a : ok (mt_proj m a).
Proof. apply s_pbsum. intros; cbn; tauto. Qed.
Lemma s_mt_poly m q : ok (mt_poly m q).
Proof. apply s_horner, s_sqdist. Qed.
Lemma s_cov : forall n c p, (csize c <= n)%nat -> cov_prog c = Ok p -> lengths_ok c -> ok p.
Proof.
  assert (X := s_sqdist). assert (Y := s_mt_poly). assert (W := s_mt_proj). assert (Pj := s_pproj).
  assert (MX : forall m, ok (mt_exp m)) by (intros m; apply X).
  induction n as [|n IH]; intros c p Hn H L; [destruct c; cbn [csize] in Hn; lia|].
  destruct c as [c|c d r|c d0 d1|c w r|c w0 w1|c d w r|m|m d r q|m d0 d1 a b|m d0 d1 q|m w r q|m w0 w1 q|m d w r q|s c|cs|sh f|].
  all: try (cbn [cov_prog] in H; injection H as <-).
  - apply X.
  - split; [apply Pj|now apply s_len].
  - split; [split; [exact I|split; apply Pj]|now apply s_len].
  - apply s_lap.
  - assert (Q : forall a, ok (pbsum (eq_shape c) (fun i => PMul (PCst (a i)) (PPow (pdiff i) 2)))) by (intros a; apply s_pbsum; intros; cbn; tauto).
    cbn [in_scope]. repeat split; auto; apply s_scale.
  - assert (Q : ok (PSub (PMul (PMul (PCst 2) (pproj (eq_shape c) (fun i => expdirlap_rescaled c d i * explap_winv c w i))) (expquad_prog c)) (PMul (pproj (eq_shape c) (expdirlap_rescaled c d)) (explap_prog c w)))).
    { refine (conj (conj (conj I (Pj _ _)) _) (conj (Pj _ _) (s_lap _ _))). apply X. }
    destruct r; exact Q.
  - cbn [cov_prog] in H. unfold matern_prog in H. destruct (mt_nu m); [|discriminate]. injection H as <-. split; [apply s_horner, X|apply X].
  - split; [split|]; auto.
  - split; [split; [split|split; [split|]]|]; auto.
  - split; [split|]; auto.
  - split; [split|]; auto.
  - split; [split|]; auto.
  - split; [split|]; auto.
  - cbn [cov_prog] in H. destruct (cov_prog c) as [q|] eqn:E; [|discriminate]. injection H as <-. split; [exact I|]. apply (IH c); auto. cbn [csize] in Hn. lia.
  - rewrite cov_prog_sum in H. destruct (cprogs cs) as [ps|] eqn:E; [|discriminate]. cbn [bind] in H. apply (preduce_all ok) with (ps := ps); auto; [intros p1 p2 H1 H2; now split|].
    apply cprogs_in in E. assert (G : forall c, In c cs -> (csize c <= n)%nat) by (intros c Hc; apply csize_in in Hc; lia). clear Hn H.
    cbn [lengths_ok] in L. induction E as [|c q cs ps Hq E IE]; intros z Hz; [contradiction|]. destruct L as [L1 L2].
    destruct Hz as [<-|Hz]; [apply (IH c); auto; apply G; now left|]. apply IE; auto. intros c' Hc'. apply G. now right.
  - discriminate.
  - discriminate.
Qed.
End Scope.

(** The value of a covariance function or of its closed-form derivatives differs from the exact value
    at the same points by no more than the propagated roundings, if nothing overflows. *)
Theorem C73_covariance : forall lb ue c p (x y : farr),
  accurate lb ue -> cov_prog c = Ok p -> lengths_ok c -> (forall i, valid (x i)) -> (forall i, valid (y i)) -> all_fin lb x y p ->
  Rabs (val (run64 lb x y p) - ceval c (fun i => val (x i)) (fun i => val (y i))) <= err u64 eta64 ue (exactly x y) p.
Proof.
  intros lb ue c p x y A H L Hx Hy F. assert (B := C73_program lb ue x y p A Hx Hy (s_cov ue _ _ c p (le_n _) H L) F).
  now rewrite (cov_val (csize c) c p (le_n _) H (exactly x y)) in B.
Qed.
(** Polynomials and sine series *)
Theorem C73_functions : forall lb ue (x y : farr), accurate lb ue -> (forall i, valid (x i)) -> (forall i, valid (y i)) ->
  (forall p, all_fin lb x y (poly_prog p) ->
     Rabs (val (run64 lb x y (poly_prog p)) - py_eval p (val (x []))) <= err u64 eta64 ue (exactly x y) (poly_prog p)) /\
  (forall l r cs, all_fin lb x y (sine_prog l r cs) ->
     Rabs (val (run64 lb x y (sine_prog l r cs)) - sine_eval l r cs (val (x []))) <= err u64 eta64 ue (exactly x y) (sine_prog l r cs)).
Proof.
  intros lb ue x y A Hx Hy. split.
  - intros p F. assert (B := C73_program lb ue x y (poly_prog p) A Hx Hy). replace (pval (exactly x y) (poly_prog p)) with (py_eval p (val (x []))) in B by (symmetry; apply (horner_val (exactly x y))).
    apply B; [|exact F]. apply s_horner. exact I.
  - intros l r cs F. assert (B := C73_program lb ue x y (sine_prog l r cs) A Hx Hy).
    replace (pval (exactly x y) (sine_prog l r cs)) with (sine_eval l r cs (val (x []))) in B.
    + apply B; [|exact F]. apply s_psum. intros q Hq. apply in_map_iff in Hq as ([c w] & <- & _). cbn; tauto.
    + unfold sine_prog, sine_eval. rewrite psum_val, map_map. f_equal. apply map_ext. intros [c w]. reflexivity.
Qed.
(** Wendland covariance functions: unless the distance is at the edge of the support up to rounding *)
Theorem C73_wendland : forall lb ue w (x y : farr),
  accurate lb ue -> (forall i, valid (x i)) -> (forall i, valid (y i)) -> all_fin lb x y (wendland_prog w) ->
  let r := dist_prog (wl_shape w) (wl_scale w) in
  err u64 eta64 ue (exactly x y) r < Rabs (pval (exactly x y) r - 1) ->
  Rabs (val (run64 lb x y (wendland_prog w)) - wendland_eval w (fun i => val (x i)) (fun i => val (y i)))
  <= err u64 eta64 ue (exactly x y) (wendland_prog w).
Proof.
  intros lb ue w x y A Hx Hy F r D.
  assert (B := C73_program lb ue x y (wendland_prog w) A Hx Hy). rewrite (f_equal (fun f => f (exactly x y)) (wendland_val w)) in B.
  apply B; [|exact F]. cbn [wendland_prog in_scope]. split; [apply s_sqdist|]. split; [exact D|].
  destruct (Rle_dec _ 1); [apply s_horner, s_sqdist|exact I].
Qed.

(** ** The hypotheses can be met *)
#[local] Instance Hprec' : FLX.Prec_gt_0 53 := eq_refl _.
#[local] Instance Hmax' : Prec_lt_emax 53 1024 := eq_refl _.
(** A library with correctly rounded constants and a correctly rounded [exp] *)
Definition to_float (r : R) : spec_float :=
  B2SF (binary_normalize 53 1024 Hprec' Hmax' mode_NE (ZnearestE (scaled_mantissa radix2 (FLT_exp (-1074) 53) r)) (cexp radix2 (FLT_exp (-1074) 53) r) false).
Definition exact_lib : lib := mklib (fun a => to_float (exp (val a))) (fun a => to_float (sin (val a))) (fun a => to_float (cos (val a))) to_float.
Lemma to_float_ok r : valid (to_float r) /\ (fin (to_float r) -> val (to_float r) = rnd64 r) /\ (no_overflow r -> fin (to_float r)).
Proof.
  unfold to_float. set (b := binary_normalize _ _ _ _ _ _ _ _). split; [apply valid_b|].
  assert (C := binary_normalize_correct 53 1024 Hprec' Hmax' mode_NE (ZnearestE (scaled_mantissa radix2 (FLT_exp (-1074) 53) r)) (cexp radix2 (FLT_exp (-1074) 53) r) false).
  cbv zeta in C. fold b in C. change (F2R _) with (rnd64 r) in C.
  change (round radix2 (SpecFloat.fexp 53 1024) (round_mode mode_NE)) with rnd64 in C.
  assert (I2 : rnd64 (rnd64 r) = rnd64 r). { apply round_generic; [apply valid_rnd_N|]. apply generic_format_round; [apply FLT_exp_valid; reflexivity|apply valid_rnd_N]. }
  rewrite I2 in C. unfold val, fin, no_overflow. rewrite is_finite_SF_B2SF, SF2R_B2SF, <- bpow_emax.
  destruct (Rlt_bool_spec (Rabs (rnd64 r)) (bpow radix2 1024)) as [L|L].
  - destruct C as (C1 & C2 & _). tauto.
  - apply overflow_inf in C. unfold fin in C. rewrite is_finite_SF_B2SF in C. split; [tauto|lra].
Qed.
Lemma u_small : u64 <= / 1024.
Proof. unfold u64. apply Rinv_le_contravar; [lra|]. replace 1024 with (2 ^ 10) by ring. apply Rle_pow; [lra|lia]. Qed.
Lemma eta_small : eta64 <= / 1024.
Proof. unfold eta64. apply Rinv_le_contravar; [lra|]. replace 1024 with (2 ^ 10) by ring. apply Rle_pow; [lra|lia]. Qed.
Example exact_lib_accurate : accurate exact_lib (2 * u64).
Proof.
  assert (U := u_pos).
  assert (N : eta64 <= u64) by (unfold eta64, u64; apply Rinv_le_contravar; [apply pow_lt; lra|]; apply Rle_pow; [lra|lia]).
  assert (T : forall r, -1 <= r <= 1 -> valid (to_float r) /\ Rabs (val (to_float r) - r) <= 2 * u64).
  { intros r H. destruct (to_float_ok r) as (V & E & F). split; [exact V|].
    assert (A : Rabs r <= 1) by now apply Rabs_le. rewrite E.
    - assert (B := rnd_error r). assert (P := Rabs_pos r). nra.
    - apply F. unfold no_overflow. apply Rle_lt_trans with 2; [|replace 2 with (2 ^ 1) at 1 by ring; apply Rlt_pow; [lra|lia]].
      assert (B := rnd_error r). assert (S := u_small). assert (S' := eta_small).
      replace (rnd64 r) with ((rnd64 r - r) + r) by ring. eapply Rle_trans; [apply Rabs_triang|]. assert (P := Rabs_pos r). nra. }
  split; [lra|]. split; [intros c; split; apply to_float_ok|]. split; [|split].
  - intros a _. split; [apply to_float_ok|]. intros _ F. cbn [exact_lib l_exp] in *. rewrite (proj1 (proj2 (to_float_ok (exp (val a)))) F).
    assert (B := rnd_error (exp (val a))). assert (P := exp_pos (val a)). rewrite (Rabs_pos_eq (exp _)) in B by lra. nra.
  - intros a _. destruct (T (sin (val a)) (SIN_bound _)) as [V B]. split; [exact V|]. intros _. exact B.
  - intros a _. destruct (T (cos (val a)) (COS_bound _)) as [V B]. split; [exact V|]. intros _. exact B.
Qed.
Lemma rnd_small r b : Rabs r <= b -> Rabs (rnd64 r) <= b * (1 + / 1024) + / 1024.
Proof.
  intros H. assert (E := rnd_error r). assert (U := u_small). assert (N := eta_small). assert (U0 := u_pos). assert (A := Rabs_pos r).
  replace (rnd64 r) with ((rnd64 r - r) + r) by ring. eapply Rle_trans; [apply Rabs_triang|]. nra.
Qed.
Lemma small_ok r b : Rabs r <= b -> b <= 2 ^ 40 -> no_overflow r.
Proof.
  intros H B. unfold no_overflow. assert (S := rnd_small r b H). apply Rle_lt_trans with (2 ^ 42); [|apply Rlt_pow; [lra|lia]].
  assert (2 ^ 42 = 4 * 2 ^ 40) by ring. assert (1 <= 2 ^ 40) by (apply pow_R1_Rle; lra). lra.
Qed.
Definition within (a : spec_float) (b : R) : Prop := valid a /\ fin a /\ Rabs (val a) <= b.
Lemma to_small r b : Rabs r <= b -> b <= 2 ^ 40 -> within (to_float r) (b * (1 + / 1024) + / 1024).
Proof.
  intros H B. destruct (to_float_ok r) as (V & E & F). specialize (F (small_ok r b H B)). split; [exact V|]. split; [exact F|].
  rewrite (E F). now apply rnd_small.
Qed.
Lemma sub_small a b A B : within a A -> within b B -> A + B <= 2 ^ 40 -> within (SFsub 53 1024 a b) ((A + B) * (1 + / 1024) + / 1024).
Proof.
  intros (Va & Fa & Ha) (Vb & Fb & Hb) H. destruct (sub_ok a b Va Vb) as [C1 C2].
  assert (M : Rabs (val a - val b) <= A + B) by (unfold Rminus; eapply Rle_trans; [apply Rabs_triang|rewrite Rabs_Ropp; lra]).
  assert (F : fin (SFsub 53 1024 a b)) by (apply C1; split; [|split]; auto; now apply (small_ok _ (A + B))).
  split; [now apply valid_sub|]. split; [exact F|]. rewrite (C2 F). now apply rnd_small.
Qed.
Lemma add_small a b A B : within a A -> within b B -> A + B <= 2 ^ 40 -> within (SFadd 53 1024 a b) ((A + B) * (1 + / 1024) + / 1024).
Proof.
  intros (Va & Fa & Ha) (Vb & Fb & Hb) H. destruct (add_ok a b Va Vb) as [C1 C2].
  assert (M : Rabs (val a + val b) <= A + B) by (eapply Rle_trans; [apply Rabs_triang|lra]).
  assert (F : fin (SFadd 53 1024 a b)) by (apply C1; split; [|split]; auto; now apply (small_ok _ (A + B))).
  split; [now apply valid_add|]. split; [exact F|]. rewrite (C2 F). now apply rnd_small.
Qed.
Lemma mul_small a b A B : within a A -> within b B -> A * B <= 2 ^ 40 -> within (SFmul 53 1024 a b) ((A * B) * (1 + / 1024) + / 1024).
Proof.
  intros (Va & Fa & Ha) (Vb & Fb & Hb) H. destruct (mul_ok a b Va Vb) as [C1 C2].
  assert (M : Rabs (val a * val b) <= A * B) by (rewrite Rabs_mult; apply Rmult_le_compat; auto; apply Rabs_pos).
  assert (F : fin (SFmul 53 1024 a b)) by (apply C1; split; [|split]; auto; now apply (small_ok _ (A * B))).
  split; [now apply valid_mul|]. split; [exact F|]. rewrite (C2 F). now apply rnd_small.
Qed.
(** The ExpQuad covariance function with a lengthscale of at least 1/2 at two numbers between -1 and 1 *)
Example C73_ex_finite : forall (l : R) (x y : farr), let e := ExpQuad [] (fun _ => l) in
  / 2 <= l -> within (x []) 1 -> within (y []) 1 -> all_fin exact_lib x y (expquad_prog e).
Proof.
  intros l x y e Hl Hx Hy.
  assert (T : 1024 <= 2 ^ 40) by (replace 1024 with (2 ^ 10) by ring; apply Rle_pow; [lra|lia]).
  assert (B1 := sub_small _ _ _ _ Hx Hy ltac:(lra)).
  assert (S2 : 1 <= sqrt 2) by (rewrite <- sqrt_1; apply sqrt_le_1_alt; lra).
  assert (Sq : sqrt 2 * sqrt 2 = 2) by (apply sqrt_sqrt; lra).
  assert (Sc : Rabs (eq_scale e []) <= 3 / 2).
  { unfold eq_scale, e. cbn [eq_len]. assert (0 < sqrt 2 * l) by nra. rewrite Rabs_pos_eq; [|left; apply Rdiv_lt_0_compat; lra].
    apply Rmult_le_reg_r with (sqrt 2 * l); [assumption|]. unfold Rdiv. rewrite Rmult_assoc, Rinv_l, Rmult_1_r by lra. assert (4 / 3 <= sqrt 2) by nra. nra. }
  assert (B2 := to_small _ _ Sc ltac:(lra)).
  assert (B3 := mul_small _ _ _ _ B1 B2 ltac:(lra)).
  assert (B4 := mul_small _ _ _ _ B3 B3 ltac:(lra)).
  assert (B0 := to_small 0 0 ltac:(rewrite Rabs_R0; lra) ltac:(lra)).
  assert (B5 := add_small _ _ _ _ B4 B0 ltac:(lra)).
  set (d := SFsub 53 1024 (x []) (y [])) in *. set (m := SFmul 53 1024 d (to_float (eq_scale e []))) in *.
  set (t := SFadd 53 1024 (SFmul 53 1024 m m) (to_float 0)) in *.
  assert (Fo : fin (SFopp t)) by (destruct B5 as (_ & F & _); destruct t; exact F).
  assert (B6 : fin (to_float (exp (val (SFopp t))))).
  { destruct B5 as (_ & _ & B5). apply to_float_ok, (small_ok _ (exp 10)).
    - rewrite Rabs_pos_eq by (left; apply exp_pos). rewrite opp_val. left. apply exp_increasing.
      apply Rabs_le_inv in B5. lra.
    - assert (E10 : exp 10 = exp 1 ^ 10) by (replace 10 with (1 + 1 + 1 + 1 + 1 + 1 + 1 + 1 + 1 + 1) at 1 by ring; rewrite !exp_plus; ring).
      rewrite E10. apply Rle_trans with (3 ^ 10); [apply pow_incr; split; [left; apply exp_pos|apply exp_le_3]|].
      replace (2 ^ 40) with ((2 ^ 4) ^ 10) by ring. apply pow_incr. lra. }
  destruct Hx as (_ & Fx & _), Hy as (_ & Fy & _), B1 as (_ & F1 & _), B2 as (_ & F2 & _), B3 as (_ & F3 & _), B4 as (_ & F4 & _), B0 as (_ & F0 & _), B5 as (_ & F5 & _).
  exact (conj B6 (conj Fo (conj F5 (conj (conj F4 (conj F3 (conj (conj F1 (conj (conj Fx I) (conj Fy I))) (conj F2 I)))) (conj F0 I))))).
Qed.
(** The two points 0 and 1: the hypotheses of [C73_covariance] hold *)
Definition pt0 : farr := fun _ => S754_zero false.
Definition pt1 : farr := fun _ => fone 53 1024.
Example C73_ex : let c := CExp (ExpQuad [] (fun _ => 1)) in
  Rabs (val (run64 exact_lib pt0 pt1 (expquad_prog (ExpQuad [] (fun _ => 1)))) - ceval c (fun _ => 0) (fun _ => 1))
  <= err u64 eta64 (2 * u64) (exactly pt0 pt1) (expquad_prog (ExpQuad [] (fun _ => 1))).
Proof.
  intros c. destruct fone_val as (V1 & F1 & E1).
  assert (W0 : within (pt0 []) 1) by (split; [reflexivity|]; split; [reflexivity|]; change (Rabs 0 <= 1); rewrite Rabs_R0; lra).
  assert (W1 : within (pt1 []) 1) by (split; [exact V1|]; split; [exact F1|]; unfold pt1; rewrite E1, Rabs_R1; lra).
  assert (B := C73_covariance exact_lib (2 * u64) c _ pt0 pt1 exact_lib_accurate eq_refl I (fun _ => proj1 W0) (fun _ => proj1 W1) (C73_ex_finite 1 pt0 pt1 ltac:(lra) W0 W1)).
  unfold pt1 in B at 2. rewrite E1 in B. exact B.
Qed.
Print Assumptions C73_nearest.
Print Assumptions C73_unit_roundoff.
Print Assumptions C73_primitives.
Print Assumptions C73_horner.
Print Assumptions C73_horner_relative.
Print Assumptions C73_program.
Print Assumptions C73_exact.
Print Assumptions C73_covariance.
Print Assumptions C73_functions.
Print Assumptions C73_wendland.
