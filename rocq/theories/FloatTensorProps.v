(** C79: tensor products of covariance functions in double precision. *)
From Coq Require Import List Reals Bool Arith ZArith Lia Lra Psatz.
From Coq.Floats Require Import SpecFloat.
From Flocq Require Import Core Relative BinarySingleNaN.
From Verif Require Import Base NdArray FunExprModel LfoModel PolyClassModel KernelModel AdModel AdSpec AdCovModel AdCovProofs FloatModel FloatSpec FloatProofs FloatProps FloatRoundSpec FloatRound FloatErr FloatRoundProps FloatRangeSpec FloatRangeProps FloatUniformProps FloatMaternProps FloatCompoundProps FloatGridProps FloatTensorModel.
Import ListNotations.
Open Scope R_scope.
#[local] Existing Instance FloatRound.Hprec.
#[local] Existing Instance FloatRound.Hmax.

(** ** The values of the factors *)
(** Factor [k], number [i] from 0, has the value [v] at the coordinates [i] of the points. *)
Definition factor_value (lb : lib) (x y : farr) (i : nat) (k : cov) (v : spec_float) : Prop :=
  exists p, cov_prog k = Ok p /\ v = run64 lb (fun _ => x [i]) (fun _ => y [i]) p.
Lemma dimensionwise_values lb ks x y vs : dimensionwise lb ks x y = Ok vs ->
  length vs = length ks /\ forall i k v, nth_error ks i = Some k -> nth_error vs i = Some v -> factor_value lb x y i k v.
Proof.
  unfold dimensionwise. assert (G : forall o vs, Base.mapM (fun '(i, k) => bind (cov_prog k) (fun p => Ok (run64 lb (coordinate x i) (coordinate y i) p))) (combine (seq o (length ks)) ks) = Ok vs ->
    length vs = length ks /\ forall i k v, nth_error ks i = Some k -> nth_error vs i = Some v -> factor_value lb x y (o + i) k v).
  { induction ks as [|k ks IH]; intros o ws H; cbn [length seq combine Base.mapM] in H.
    - apply ok_inj in H. subst ws. split; [reflexivity|]. intros [|i] k v E; discriminate E.
    - destruct (cov_prog k) as [p|] eqn:E; [|discriminate H]. cbn [bind] in H. destruct (Base.mapM _ (combine (seq (S o) (length ks)) ks)) as [ws'|] eqn:W; [|discriminate H]. cbn [bind] in H. apply ok_inj in H. subst ws.
      destruct (IH (S o) ws' W) as [L V]. split; [cbn; congruence|]. intros [|i] k' v Hk Hv; cbn [nth_error] in Hk, Hv.
      + injection Hk as <-. injection Hv as <-. exists p. rewrite Nat.add_0_r. split; [exact E|reflexivity].
      + replace (o + S i)%nat with (S o + i)%nat by lia. now apply V. }
  intros H. exact (G 0%nat vs H).
Qed.
Lemma factors_all (P : cov -> spec_float -> Prop) lb x y ks vs : dimensionwise lb ks x y = Ok vs ->
  (forall i k v, nth_error ks i = Some k -> factor_value lb x y i k v -> P k v) -> Forall2 P ks vs.
Proof.
  intros H HP. destruct (dimensionwise_values lb ks x y vs H) as [L V]. clear H.
  assert (G : forall o, (forall i k v, nth_error ks i = Some k -> nth_error vs i = Some v -> factor_value lb x y (o + i) k v) -> (forall i k v, nth_error ks i = Some k -> factor_value lb x y (o + i) k v -> P k v) -> Forall2 P ks vs).
  { clear V HP. revert vs L. induction ks as [|k ks IH]; intros [|v vs] L o V HP; try discriminate L; constructor.
    - apply (HP 0%nat); [reflexivity|]. now apply (V 0%nat).
    - apply (IH vs ltac:(cbn in L; lia) (S o)); intros i k' v' H H'; rewrite Nat.add_succ_comm in *; [now apply (V (S i))|now apply (HP (S i))]. }
  apply (G 0%nat); assumption.
Qed.

(** ** Definedness *)
(** A tensor product has a value exactly if it has a factor and every factor has a program; the value is that of the
    factors, multiplied from the left. *)
Theorem C79_value : forall lb ks x y, ks <> [] -> (forall k, In k ks -> exists p, cov_prog k = Ok p) ->
  exists v vs, tensor_jax lb ks x y = Ok (fold_left (SFmul 53 1024) vs v) /\ length (v :: vs) = length ks /\
    forall i k w, nth_error ks i = Some k -> nth_error (v :: vs) i = Some w -> factor_value lb x y i k w.
Proof.
  intros lb ks x y N D. assert (E : exists ws, dimensionwise lb ks x y = Ok ws).
  { unfold dimensionwise. generalize 0%nat. clear N. induction ks as [|k ks IH]; intros o; cbn [length seq combine Base.mapM]; [eexists; reflexivity|]. destruct (D k (or_introl eq_refl)) as [p P].
    rewrite P. cbn [bind].
    destruct (IH (fun k' H => D k' (or_intror H)) (S o)) as [ws ->]. cbn [bind]. eauto. }
  destruct E as [ws E]. destruct (dimensionwise_values _ _ _ _ _ E) as [L V]. unfold tensor_jax. rewrite E. cbn [bind]. destruct ws as [|v vs]; [destruct ks; [contradiction|discriminate L]|]. exists v, vs. auto.
Qed.
Theorem C79_error : forall lb ks x y,
  (ks = [] -> tensor_jax lb ks x y = Err TypeError) /\
  (forall k ks' e, ks = k :: ks' -> cov_prog k = Err e -> tensor_jax lb ks x y = Err e) /\
  ((exists k e, In k ks /\ cov_prog k = Err e) -> exists e, tensor_jax lb ks x y = Err e).
Proof.
  intros lb ks x y. split; [intros ->; reflexivity|]. split.
  - intros k ks' e -> E. unfold tensor_jax, dimensionwise. cbn [length seq combine Base.mapM]. rewrite E. reflexivity.
  - intros (k & e & I & E). destruct (tensor_jax lb ks x y) as [r|] eqn:T; [|eauto]. exfalso. unfold tensor_jax in T. destruct (dimensionwise lb ks x y) as [vs|] eqn:W; [|discriminate T].
    destruct (dimensionwise_values _ _ _ _ _ W) as [L V]. apply In_nth_error in I as [i I]. destruct (nth_error vs i) as [v|] eqn:Ev.
    + destruct (V i k v I Ev) as (p & P & _). congruence.
    + apply nth_error_None in Ev. assert (nth_error ks i <> None) by congruence. apply nth_error_Some in H. lia.
Qed.

(** ** Symmetry, diagonal, range *)
(** Exchanging the points gives the same number, bit by bit. *)
Theorem C79_symmetric : forall lb ks x y, (forall k, In k ks -> squares_only k = true) -> tensor_jax lb ks x y = tensor_jax lb ks y x.
Proof.
  intros lb ks x y S. unfold tensor_jax. f_equal. unfold dimensionwise. generalize 0%nat. induction ks as [|k ks IH]; intros o; cbn [length seq combine Base.mapM]; [reflexivity|].
  rewrite (IH (fun k' H => S k' (or_intror H))). destruct (cov_prog k) as [p|] eqn:E; [|reflexivity]. cbn [bind]. unfold run64. rewrite (C72_symmetric 53 1024 lb k p (coordinate x o) (coordinate y o) (S k (or_introl eq_refl)) E). reflexivity.
Qed.
Lemma one_one : SFmul 53 1024 (fone 53 1024) (fone 53 1024) = fone 53 1024.
Proof. vm_compute. reflexivity. Qed.
(** The value at a point with itself is exactly 1, for squared exponential factors. *)
Theorem C79_diagonal : forall lb es (x : farr), es <> [] ->
  l_cst lb 0 = S754_zero false -> (forall s, l_exp lb (S754_zero s) = fone 53 1024) ->
  (forall i e, nth_error es i = Some e -> eq_shape e = [] /\ finite_f (x [i]) /\ finite_f (l_cst lb (eq_scale e []))) ->
  tensor_jax lb (map CExp es) x x = Ok (fone 53 1024).
Proof.
  intros lb es x N Z E H. destruct (C79_value lb (map CExp es) x x) as (v & vs & T & L & V).
  - destruct es; [contradiction|discriminate].
  - intros k Hk. apply in_map_iff in Hk as (e & <- & _). eexists. reflexivity.
  - rewrite T. f_equal. assert (A : forall w, In w (v :: vs) -> w = fone 53 1024).
    { intros w Hw. apply In_nth_error in Hw as [i Hi]. assert (I : (i < length (map CExp es))%nat) by (rewrite <- L; apply nth_error_Some; congruence). rewrite map_length in I.
      destruct (nth_error es i) as [e|] eqn:Ee; [|apply nth_error_None in Ee; lia]. destruct (V i (CExp e) w (map_nth_error _ _ _ Ee) Hi) as (p & P & ->). cbn [cov_prog] in P. apply ok_inj in P. subst p.
      destruct (H i e Ee) as (S & F1 & F2). apply (C72_diagonal_expquad lb e (fun _ => x [i]) Z E). rewrite S. change (all_indices []) with [@nil nat]. intros j [<-|[]]. split; assumption. }
    rewrite (A v (or_introl eq_refl)). assert (A' : forall w, In w vs -> w = fone 53 1024) by (intros w Hw; apply A; now right). clear - A'. induction vs as [|w vs IH]; [reflexivity|]. cbn [fold_left]. rewrite (A' w (or_introl eq_refl)), one_one. apply IH. intros w' H. apply A'. now right.
Qed.
Lemma unit_val a : valid a -> in_unit a -> fin a /\ 0 <= val a <= 1.
Proof.
  intros V [A B]. destruct fone_val as (V1 & F1 & E1). assert (F : fin a) by (destruct a as [|[]| |]; (reflexivity || discriminate)). split; [exact F|].
  rewrite leb_val in A by (try reflexivity; assumption). rewrite (leb_val a (SFone 53 1024) V V1 F F1) in B. destruct (Rle_bool_spec (val (S754_zero false)) (val a)) as [C|C]; [|discriminate A]. destruct (Rle_bool_spec (val a) (val (SFone 53 1024))) as [D|D]; [|discriminate B].
  change (SFone 53 1024) with (fone 53 1024) in D. rewrite E1 in D. change (val (S754_zero false)) with 0 in C. lra.
Qed.
Lemma unit_mul a b : valid a -> valid b -> in_unit a -> in_unit b -> valid (SFmul 53 1024 a b) /\ in_unit (SFmul 53 1024 a b) /\ (val a = 0 \/ val b = 0 -> val (SFmul 53 1024 a b) = 0).
Proof.
  intros Va Vb Ua Ub. destruct (unit_val a Va Ua) as [Fa Ra], (unit_val b Vb Ub) as [Fb Rb]. destruct fone_val as (V1 & F1 & E1).
  assert (V := valid_mul a b Va Vb). split; [exact V|]. assert (P : 0 <= val a * val b <= 1) by (split; [apply Rmult_le_pos; lra|nra]).
  assert (Q : val (S754_zero false) <= val a * val b <= val (fone 53 1024)) by (rewrite E1; exact P).
  destruct (rnd_between (S754_zero false) (fone 53 1024) (val a * val b) eq_refl V1 Q) as [B NO].
  assert (F : fin (SFmul 53 1024 a b)) by (apply (mul_ok a b Va Vb); auto). assert (E := proj2 (mul_ok a b Va Vb) F). split.
  - split; [rewrite leb_val by (try reflexivity; assumption)|change (SFone 53 1024) with (fone 53 1024); rewrite (leb_val _ _ V V1 F F1)]; apply Rle_bool_true; rewrite E; apply B.
  - intros Z. rewrite E. replace (val a * val b) with 0 by (destruct Z as [-> | ->]; ring). unfold rnd64. apply round_0. apply valid_rnd_N.
Qed.
(** A factor that is a squared exponential or a Matern covariance function with smoothness 1/2, with a scale factor
    that is not rounded to 0 *)
Definition decaying_factor (lb : lib) (k : cov) : Prop :=
  (exists e, k = CExp e /\ eq_shape e = [] /\ good_scale lb [] (eq_scale e)) \/
  (exists m, k = CMat m /\ mt_shape m = [] /\ mt_nu m = HalfInt 0 /\ good_scale lb [] (mt_scale m)).
Lemma factor_unit lb k i x y v : l_cst lb 0 = S754_zero false -> l_cst lb 1 = fone 53 1024 -> decaying lb -> decaying_factor lb k ->
  valid (x [i]) -> fin (x [i]) -> valid (y [i]) -> fin (y [i]) -> factor_value lb x y i k v -> valid v /\ in_unit v.
Proof.
  intros Z O D K Vx Fx Vy Fy (p & P & ->). assert (X : forall sh, good_point sh (fun _ => x [i])) by (intros sh j _; auto). assert (Y : forall sh, good_point sh (fun _ => y [i])) by (intros sh j _; auto).
  destruct K as [(e & -> & S & G)|(m & -> & S & N & G)]; cbn [cov_prog] in P.
  - apply ok_inj in P. subst p. rewrite <- S in G. split; [|apply (C74_expquad lb e _ _ Z D G (X _) (Y _))]. destruct (sqdist_ok lb _ _ _ _ Z G (X _) (Y _)) as (V & Np & _).
    unfold run64, expquad_prog. cbn [frun]. apply D; [apply valid_opp, V|apply opp_nonpos, Np].
  - rewrite <- S in G. split; [|apply (C74_matern_half lb m p _ _ Z O D G (X _) (Y _) N P)]. unfold matern_prog in P. rewrite N in P. destruct (half_integer_head 0) as [l Hl].
    assert (l = []) by (apply (f_equal (@length _)) in Hl; cbn in Hl; destruct l; [reflexivity|discriminate]). subst l. cbv iota zeta in P. rewrite Hl in P. apply ok_inj in P. subst p.
    destruct (dist_ok lb _ _ _ _ Z G (X _) (Y _)) as (V & Np & _). unfold run64 in *. cbn [horner_prog length Nat.sub seq rev fold_left nth frun]. rewrite O. apply valid_mul; [apply fone_val|]. apply D; [apply valid_opp, V|apply opp_nonpos, Np].
Qed.
(** Then the tensor product is a number between 0 and 1 for all points of finite numbers, never NaN, and it is 0 if
    one factor is, as for points that are far apart in one coordinate. *)
Theorem C79_range : forall lb ks x y r, l_cst lb 0 = S754_zero false -> l_cst lb 1 = fone 53 1024 -> decaying lb ->
  (forall k, In k ks -> decaying_factor lb k) -> (forall i, valid (x [i]) /\ fin (x [i])) -> (forall i, valid (y [i]) /\ fin (y [i])) ->
  tensor_jax lb ks x y = Ok r ->
  in_unit r /\ ((exists i k v, nth_error ks i = Some k /\ factor_value lb x y i k v /\ val v = 0) -> val r = 0).
Proof.
  intros lb ks x y r Z O D K X Y H. unfold tensor_jax in H. destruct (dimensionwise lb ks x y) as [vs|] eqn:W; [|discriminate H]. cbn [bind] in H.
  assert (A : Forall2 (fun k v => valid v /\ in_unit v) ks vs).
  { apply (factors_all _ lb x y ks vs W). intros i k v Hi F. destruct (X i), (Y i). apply (factor_unit lb k i x y v); try assumption. apply K. eapply nth_error_In; eauto. }
  destruct (dimensionwise_values _ _ _ _ _ W) as [L V].
  assert (In0 : (exists i k v, nth_error ks i = Some k /\ factor_value lb x y i k v /\ val v = 0) -> exists v, In v vs /\ val v = 0).
  { intros (i & k & v & Hk & (p & P & E) & Hz). destruct (nth_error vs i) as [w|] eqn:Ew.
    - destruct (V i k w Hk Ew) as (p' & P' & E'). rewrite P in P'. apply ok_inj in P'. subst p'. exists w. split; [eapply nth_error_In; eauto|]. now rewrite E', <- E.
    - apply nth_error_None in Ew. assert (nth_error ks i <> None) by congruence. apply nth_error_Some in H0. lia. }
  assert (A' : List.Forall (fun v => valid v /\ in_unit v) vs) by (clear - A; induction A; constructor; auto). destruct vs as [|v vs]; [discriminate H|]. apply ok_inj in H. subst r.
  assert (G : forall vs v, valid v -> in_unit v -> List.Forall (fun v => valid v /\ in_unit v) vs ->
    in_unit (fold_left (SFmul 53 1024) vs v) /\ (val v = 0 \/ (exists w, In w vs /\ val w = 0) -> val (fold_left (SFmul 53 1024) vs v) = 0)).
  { clear. induction vs as [|w vs IH]; intros v Vv Uv F; cbn [fold_left]; [split; [exact Uv|intros [E|(w & [] & _)]; exact E]|]. inversion F as [|? ? [Vw Uw] F']; subst. destruct (unit_mul v w Vv Vw Uv Uw) as (V1 & U1 & Z1).
    destruct (IH _ V1 U1 F') as [I1 I2]. split; [exact I1|]. intros [E|(t & [-> |Ht] & E)]; apply I2; [left; apply Z1; auto|left; apply Z1; auto|right; eauto]. }
  inversion A' as [|? ? [Vv Uv] F]; subst. destruct (G vs v Vv Uv F) as [G1 G2]. split; [exact G1|]. intros H. apply In0 in H as (w & [-> |Hw] & E); apply G2; [left; exact E|right; eauto].
Qed.

(** ** Accuracy *)
Definition mul_bounds (a b : R * R) : R * R :=
  (fst a * fst b, (1 + u64) * (fst a * snd b + fst b * snd a + snd a * snd b) + u64 * (fst a * fst b) + eta64).
Lemma mul_step a ah b bh A E B F : Rabs a <= A -> Rabs (ah - a) <= E -> Rabs b <= B -> Rabs (bh - b) <= F ->
  Rabs (rnd64 (ah * bh) - a * b) <= (1 + u64) * (A * F + B * E + E * F) + u64 * (A * B) + eta64.
Proof.
  intros HA HE HB HF. assert (U := u_lt). assert (R := rnd_error (ah * bh)). assert (PA := Rabs_pos a). assert (PB := Rabs_pos b). assert (PE := Rabs_pos (ah - a)). assert (PF := Rabs_pos (bh - b)).
  assert (D : Rabs (ah * bh - a * b) <= A * F + B * E + E * F).
  { replace (ah * bh - a * b) with (a * (bh - b) + b * (ah - a) + (ah - a) * (bh - b)) by ring. eapply Rle_trans; [apply Rabs_triang|]. apply Rplus_le_compat.
    - eapply Rle_trans; [apply Rabs_triang|]. rewrite !Rabs_mult. apply Rplus_le_compat; apply Rmult_le_compat; lra.
    - rewrite Rabs_mult. apply Rmult_le_compat; lra. }
  assert (M : Rabs (a * b) <= A * B) by (rewrite Rabs_mult; apply Rmult_le_compat; lra).
  assert (P : Rabs (ah * bh) <= A * B + (A * F + B * E + E * F)) by (replace (ah * bh) with (a * b + (ah * bh - a * b)) by ring; eapply Rle_trans; [apply Rabs_triang|lra]).
  replace (rnd64 (ah * bh) - a * b) with ((rnd64 (ah * bh) - ah * bh) + (ah * bh - a * b)) by ring. eapply Rle_trans; [apply Rabs_triang|]. apply (Rmult_le_compat_l u64) in P; [|lra]. lra.
Qed.
Definition factor_exact (x y : farr) (ik : nat * cov) : R := ceval (snd ik) (fun _ => val (x [fst ik])) (fun _ => val (y [fst ik])).
(** The exact tensor product, for exact points *)
Definition tensor_exact (ks : list cov) (x y : farr) : R := fold_right Rmult 1 (map (factor_exact x y) (combine (seq 0 (length ks)) ks)).
Definition tensor_bound (ue : R) (ks : list cov) : R * R :=
  match map (cov_bound ue) ks with [] => (0, 0) | b :: bs => fold_left mul_bounds bs b end.
(** For factors as in [C75_compound], unless something overflows: a bound that depends on neither the points nor the
    lengthscales. *)
Theorem C79_accuracy : forall lb ue ks (x y : farr) r,
  accurate lb ue -> (forall i, valid (x i)) -> (forall i, valid (y i)) -> (forall k, In k ks -> compound k) ->
  (forall i k p, nth_error ks i = Some k -> cov_prog k = Ok p -> all_fin lb (fun _ => x [i]) (fun _ => y [i]) p) ->
  tensor_jax lb ks x y = Ok r -> fin r ->
  Rabs (val r - tensor_exact ks x y) <= snd (tensor_bound ue ks).
Proof.
  intros lb ue ks x y r Acc Hx Hy C F H Fr. unfold tensor_jax in H. destruct (dimensionwise lb ks x y) as [vs|] eqn:W; [|discriminate H]. cbn [bind] in H.
  destruct (dimensionwise_values _ _ _ _ _ W) as [L V].
  assert (G : forall ks vs o, length vs = length ks -> (forall i k v, nth_error ks i = Some k -> nth_error vs i = Some v -> factor_value lb x y (o + i) k v) ->
     (forall k, In k ks -> compound k) -> (forall i k p, nth_error ks i = Some k -> cov_prog k = Ok p -> all_fin lb (fun _ => x [(o + i)%nat]) (fun _ => y [(o + i)%nat]) p) ->
     Forall2 (fun ik v => valid v /\ Rabs (factor_exact x y ik) <= fst (cov_bound ue (snd ik)) /\ Rabs (val v - factor_exact x y ik) <= snd (cov_bound ue (snd ik))) (combine (seq o (length ks)) ks) vs).
  { clear - Acc Hx Hy. induction ks as [|k ks IH]; intros [|v vs] o L V C F; try discriminate L; cbn [length seq combine]; constructor.
    - destruct (V 0%nat k v eq_refl eq_refl) as (p & P & ->). rewrite Nat.add_0_r. split; [eapply valid_run; eauto|]. assert (Fp := F 0%nat k p eq_refl P). rewrite Nat.add_0_r in Fp.
      exact (compound_within lb ue (fun _ => x [o]) (fun _ => y [o]) Acc (fun _ => Hx [o]) (fun _ => Hy [o]) (csize k) k p (le_n _) P (C k (or_introl eq_refl)) Fp).
    - apply IH; [cbn in L; lia| |intros k' H; apply C; now right|].
      + intros i k' v' A B. rewrite Nat.add_succ_comm. now apply (V (S i)).
      + intros i k' p A B. rewrite Nat.add_succ_comm. now apply (F (S i) k'). }
  specialize (G ks vs 0%nat L V C F). clear V L W F C.
  assert (Fold : forall l vs, Forall2 (fun ik v => valid v /\ Rabs (factor_exact x y ik) <= fst (cov_bound ue (snd ik)) /\ Rabs (val v - factor_exact x y ik) <= snd (cov_bound ue (snd ik))) l vs ->
     forall b a v, valid v -> Rabs a <= fst b -> Rabs (val v - a) <= snd b -> fin (fold_left (SFmul 53 1024) vs v) ->
     Rabs (val (fold_left (SFmul 53 1024) vs v) - a * fold_right Rmult 1 (map (factor_exact x y) l)) <= snd (fold_left mul_bounds (map (fun ik => cov_bound ue (snd ik)) l) b)).
  { clear. induction 1 as [|ik w l vs (Vw & A1 & A2) G IH]; intros b a v Vv B1 B2 Fv; cbn [map fold_left fold_right] in *; [rewrite Rmult_1_r; exact B2|].
    assert (Ff : fin (SFmul 53 1024 v w)). { clear - Fv. revert Fv. generalize (SFmul 53 1024 v w). induction vs as [|t vs IH]; intros z Fv; [exact Fv|]. cbn [fold_left] in Fv. apply IH in Fv. now apply mul_finite_args in Fv. }
    rewrite <- Rmult_assoc. apply IH; [now apply valid_mul| | |exact Fv]; unfold mul_bounds; cbn [fst snd].
    - rewrite Rabs_mult. apply Rmult_le_compat; try apply Rabs_pos; assumption.
    - rewrite (proj2 (mul_ok v w Vv Vw) Ff). now apply mul_step. }
  unfold tensor_exact, tensor_bound. assert (M : map (cov_bound ue) ks = map (fun ik => cov_bound ue (snd ik)) (combine (seq 0 (length ks)) ks)).
  { generalize 0%nat. clear. induction ks as [|k ks IH]; intros o; cbn [length seq combine map snd]; [reflexivity|]. f_equal. apply IH. }
  rewrite M. clear M. destruct G as [|ik v l vs (Vv & A1 & A2) G]; [discriminate H|]. apply ok_inj in H. subst r. cbn [map fold_right]. apply Fold; assumption.
Qed.
(** If the factors are bounded by 1 and each has an error of at most [e], the bound for [m] factors is at most
    [((1 + e) (1 + 2 u))^m - 1]. *)
Theorem C79_bound : forall ue ks e, 0 <= e -> ks <> [] -> (forall k, In k ks -> fst (cov_bound ue k) = 1 /\ 0 <= snd (cov_bound ue k) <= e) ->
  snd (tensor_bound ue ks) <= ((1 + e) * (1 + 2 * / 2 ^ 53)) ^ length ks - 1.
Proof.
  intros ue ks e He N H. change (/ 2 ^ 53) with u64. unfold tensor_bound. assert (U := u_lt). assert (Nt := eta_lt). destruct u_eta as (N1 & _ & U3). destruct ks as [|k ks]; [contradiction|]. cbn [map].
  assert (G : forall ks b T, (forall k, In k ks -> fst (cov_bound ue k) = 1 /\ 0 <= snd (cov_bound ue k) <= e) -> fst b = 1 -> 0 <= snd b -> 1 + snd b <= T ->
     1 + snd (fold_left mul_bounds (map (cov_bound ue) ks) b) <= T * ((1 + e) * (1 + 2 * u64)) ^ length ks).
  { clear - U Nt N1 U3 He. induction ks as [|k ks IH]; intros b T H B1 B2 B3; cbn [map fold_left length pow]; [lra|]. destruct (H k (or_introl eq_refl)) as [K1 K2]. rewrite <- Rmult_assoc.
    assert (Q : snd (mul_bounds b (cov_bound ue k)) = (1 + u64) * ((1 + snd b) * (1 + snd (cov_bound ue k)) - 1) + u64 + eta64) by (unfold mul_bounds; cbn [snd]; rewrite B1, K1; ring).
    apply IH; [intros k' Hk; apply H; now right|unfold mul_bounds; cbn [fst]; rewrite B1, K1; ring| |]; rewrite Q.
    - assert (0 <= (1 + snd b) * (1 + snd (cov_bound ue k)) - 1) by nra. nra.
    - set (t := snd b) in *. set (f := snd (cov_bound ue k)) in *. assert (P : (1 + t) * (1 + f) <= T * (1 + e)) by (apply Rmult_le_compat; lra). assert (P1 : 1 <= (1 + t) * (1 + f)) by nra. nra. }
  destruct (H k (or_introl eq_refl)) as [K1 K2]. assert (B := G ks (cov_bound ue k) ((1 + e) * (1 + 2 * u64)) (fun k' Hk => H k' (or_intror Hk)) K1 (proj1 K2)). cbn [length pow]. enough (1 + snd (cov_bound ue k) <= (1 + e) * (1 + 2 * u64)) by (specialize (B H0); lra). nra.
Qed.

(** Two squared exponential factors at the points (0, 0) and (1, 1): the hypotheses of [C79_accuracy] hold. *)
Definition k1 : cov := CExp (ExpQuad [] (fun _ => 1)).
Example C79_ex : exists r, tensor_jax exact_lib [k1; k1] pt0 pt1 = Ok r /\ Rabs (val r - exp (- 1)) <= 28 * / 2 ^ 53.
Proof.
  eexists. split; [reflexivity|]. change (/ 2 ^ 53) with u64. destruct fone_val as (V1 & F1 & E1). assert (U := u_lt). destruct u_eta as (N1 & N2 & U3). assert (Nt := eta_lt).
  assert (T : 1024 <= 2 ^ 40) by (replace 1024 with (2 ^ 10) by ring; apply Rle_pow; [lra|lia]).
  assert (W0 : within (pt0 []) 1) by (split; [reflexivity|]; split; [reflexivity|]; change (Rabs 0 <= 1); rewrite Rabs_R0; lra).
  assert (W1 : within (pt1 []) 1) by (split; [exact V1|]; split; [exact F1|]; unfold pt1; rewrite E1, Rabs_R1; lra).
  assert (Hx : forall i, valid (pt0 i)) by exact (fun _ => proj1 W0). assert (Hy : forall i, valid (pt1 i)) by exact (fun _ => proj1 W1).
  assert (S2 : 1 <= sqrt 2) by (rewrite <- sqrt_1; apply sqrt_le_1_alt; lra). assert (Sq : sqrt 2 * sqrt 2 = 2) by (apply sqrt_sqrt; lra).
  assert (FK : all_fin exact_lib pt0 pt1 (expquad_prog (ExpQuad [] (fun _ => 1)))) by exact (C73_ex_finite 1 pt0 pt1 ltac:(lra) W0 W1).
  assert (EX : exp (- / 2) <= 1) by (rewrite <- exp_0; left; apply exp_increasing; lra). assert (EP := exp_pos (- / 2)).
  assert (VK := valid_run exact_lib (2 * u64) pt0 pt1 (expquad_prog (ExpQuad [] (fun _ => 1))) exact_lib_accurate Hx Hy).
  assert (WK : within (run64 exact_lib pt0 pt1 (expquad_prog (ExpQuad [] (fun _ => 1)))) 2).
  { split; [exact VK|]. split; [exact (all_fin_run _ _ _ _ FK)|]. assert (B := C75_ex_expquad). change (/ 2 ^ 53) with u64 in B. apply Rabs_le_inv in B. apply Rabs_le. lra. }
  assert (B1 := mul_small _ _ _ _ WK WK ltac:(lra)).
  assert (EV : tensor_exact [k1; k1] pt0 pt1 = exp (- 1)).
  { assert (G : forall v w, expquad_eval (ExpQuad [] (fun _ => 1)) (fun _ => v) (fun _ => w) = exp (- ((v - w) ^ 2 * / 2))).
    { intros v w. unfold expquad_eval, bnorm_sq, bsum. cbn. unfold vdiff, eq_scale. cbn [eq_len]. do 2 f_equal. replace (/ 2) with (/ (sqrt 2 * sqrt 2)) by now rewrite Sq. field. lra. }
    assert (G' : forall i, factor_exact pt0 pt1 (i, k1) = exp (- / 2)).
    { intros i. etransitivity; [exact (G 0 (val (fone 53 1024)))|]. rewrite E1. f_equal. lra. }
    unfold tensor_exact. cbn [length seq combine map fold_right]. rewrite !G', Rmult_1_r, <- exp_plus. f_equal. lra. }
  rewrite <- EV. eapply Rle_trans; [apply (C79_accuracy exact_lib (2 * u64) [k1; k1] pt0 pt1)|]; try assumption.
  - exact exact_lib_accurate.
  - assert (T2 : / 2 ^ 1022 <= / 2) by (apply Rinv_le_contravar; [lra|]; rewrite <- (pow_1 2) at 1; apply Rle_pow; [lra|lia]).
    assert (K : compound k1).
    { split; [|cbn; lra]. intros i _. unfold eq_scale. cbn [eq_len]. rewrite Rabs_pos_eq by (left; apply Rdiv_lt_0_compat; lra). rewrite Rmult_1_r.
      eapply Rle_trans; [exact T2|]. unfold Rdiv. rewrite Rmult_1_l. apply Rinv_le_contravar; [lra|]. nra. }
    intros k [<-|[<-|[]]]; exact K.
  - intros [|[|[|i]]] k p Hk Hp; cbn [nth_error] in Hk; try discriminate Hk; injection Hk as <-; cbn [k1 cov_prog] in Hp; apply ok_inj in Hp; subst p; exact FK.
  - reflexivity.
  - exact (proj1 (proj2 B1)).
  - unfold tensor_bound. cbn [map fold_left k1 cov_bound mul_bounds fst snd eq_shape size fold_right INR]. assert (UU : u64 * u64 <= u64 / 1024) by nra. assert (UV : u64 * (u64 * u64) <= u64 / 1024 / 1024) by nra. lra.
Qed.
(** A point that is far away in both coordinates: the tensor product is 0. *)
Example C79_ex_far : let k := CExp (ExpQuad [] (fun _ => / 2)) in exists r, tensor_jax ieee_lib [k; k] huge pt0 = Ok r /\ in_unit r /\ val r = 0.
Proof.
  intros k. eexists. split; [reflexivity|].
  assert (S : 1 <= eq_scale (ExpQuad [] (fun _ => / 2)) [] <= 1024).
  { unfold eq_scale. cbn [eq_len]. assert (S2 : 1 <= sqrt 2) by (rewrite <- sqrt_1; apply sqrt_le_1_alt; lra). assert (Sq : sqrt 2 * sqrt 2 = 2) by (apply sqrt_sqrt; lra). assert (S3 : sqrt 2 <= 2) by nra.
    assert (I1 : / 2 <= / sqrt 2 <= 1) by (split; [apply Rinv_le_contravar; lra|rewrite <- Rinv_1; apply Rinv_le_contravar; lra]).
    replace (1 / (sqrt 2 * / 2)) with (2 * / sqrt 2) by (field; lra). lra. }
  destruct (huge_far _ S) as [_ G].
  assert (K : decaying_factor ieee_lib k) by (left; exists (ExpQuad [] (fun _ => / 2)); split; [reflexivity|]; split; [reflexivity|]; exact G).
  assert (X : forall i, valid (huge [i]) /\ fin (huge [i])) by (intros i; split; reflexivity). assert (Y : forall i, valid (pt0 [i]) /\ fin (pt0 [i])) by (intros i; split; reflexivity).
  assert (KK : forall k', In k' [k; k] -> decaying_factor ieee_lib k') by (intros k' [<-|[<-|[]]]; exact K).
  destruct (C79_range ieee_lib [k; k] huge pt0 _ to_float_0 to_float_1 ieee_lib_decaying KK X Y eq_refl) as [R1 R2]. split; [exact R1|]. apply R2.
  exists 0%nat, k, (S754_zero false). split; [reflexivity|]. split; [|reflexivity]. exists (expquad_prog (ExpQuad [] (fun _ => / 2))). split; [reflexivity|]. symmetry. exact C74_ex_expquad.
Qed.
Print Assumptions C79_accuracy.
