From Coq Require Import List Reals Bool Arith ZArith Lra Lia FunctionalExtensionality.
From Coquelicot Require Import Coquelicot.
From Verif Require Import Base NdArray PolyModel PolyClassModel FunExprModel DiffopModel LfoModel KernelModel WendlandModel PdeModel AdModel AdSpec.
Import ListNotations.
Open Scope R_scope.

Lemma iter_emul x n : Nat.iter n (emul (Fin x)) (Fin 1) = Fin (x ^ n).
Proof. induction n; [reflexivity|]. cbn [Nat.iter nat_rect pow]. change (Nat.iter n (emul (Fin x)) (Fin 1)) with (nat_rect (fun _ => ext) (Fin 1) (fun _ => emul (Fin x)) n) in IHn. now rewrite IHn. Qed.
Lemma epow_ok x n : (0 <= n)%Z \/ x <> 0 -> epow (Fin x) n = Fin (powerRZ x n).
Proof.
  intros H. unfold epow. rewrite iter_emul. destruct n as [|p|p]; cbn [Z.abs Z.to_nat Z.ltb Z.compare powerRZ]; [reflexivity|reflexivity|].
  assert (N : x <> 0) by (destruct H; [lia|assumption]). assert (Q := pow_nonzero x (Pos.to_nat p) N).
  cbn [ediv]. destruct (Reqb_spec (x ^ Pos.to_nat p) 0); [contradiction|]. f_equal. unfold Rdiv. lra.
Qed.
Lemma run_reg e p : reg e p -> run e p = Fin (pval e p).
Proof.
  induction p; cbn [reg run pval]; intros H.
  - reflexivity.
  - reflexivity.
  - rewrite IHp1, IHp2 by tauto. reflexivity.
  - rewrite IHp1, IHp2 by tauto. reflexivity.
  - rewrite IHp1, IHp2 by tauto. reflexivity.
  - rewrite IHp1, IHp2 by tauto. cbn [ediv]. destruct (Reqb_spec (pval e p2) 0); [tauto|reflexivity].
  - rewrite IHp by tauto. reflexivity.
  - rewrite IHp by tauto. reflexivity.
  - rewrite IHp by tauto. cbn [esqrt]. destruct (Rleb_spec 0 (pval e p)); [reflexivity|lra].
  - rewrite IHp by tauto. reflexivity.
  - rewrite IHp by tauto. reflexivity.
  - rewrite IHp by tauto. now apply epow_ok.
  - rewrite IHp1 by tauto. cbn [ele1]. unfold Rleb. destruct (Rle_dec (pval e p1) 1); [apply IHp2|apply IHp3]; tauto.
Qed.
Lemma reg_tangent b v e p : reg e p -> reg e (pjvp b p v).
Proof.
  unfold pjvp.
  induction p; cbn [reg tangent]; intros H.
  - destruct (Bool.eqb b b0); cbn; auto.
  - exact I.
  - destruct H as [H1 H2]. specialize (IHp1 H1). specialize (IHp2 H2). destruct (tangent b v p1), (tangent b v p2); cbn in *; auto.
  - destruct H as [H1 H2]. specialize (IHp1 H1). specialize (IHp2 H2). destruct (tangent b v p1), (tangent b v p2); cbn in *; auto.
  - destruct H as [H1 H2]. specialize (IHp1 H1). specialize (IHp2 H2). destruct (tangent b v p1), (tangent b v p2); cbn in *; auto.
  - destruct H as (H1 & H2 & H3). specialize (IHp1 H1). specialize (IHp2 H2). destruct (tangent b v p1), (tangent b v p2); cbn in *; auto 10.
  - specialize (IHp H). destruct (tangent b v p); cbn in *; auto.
  - specialize (IHp H). destruct (tangent b v p); cbn in *; auto.
  - destruct H as [H1 H2]. specialize (IHp H1). destruct (tangent b v p); cbn in *; [|exact I].
    split; [exact IHp|]. split; [exact I|]. split; [tauto|]. intros E. apply sqrt_eq_0 in E; lra.
  - specialize (IHp H). destruct (tangent b v p); cbn in *; auto.
  - specialize (IHp H). destruct (tangent b v p); cbn in *; auto.
  - destruct H as [H1 H2]. specialize (IHp H1). destruct (tangent b v p); cbn in *; [|exact I].
    destruct (Z.eqb_spec n 0); cbn; [exact I|]. split; [exact IHp|]. split; [exact I|]. split; [exact H1|]. destruct H2; [left; lia|right; assumption].
  - destruct H as (H1 & H2 & H3 & H4). specialize (IHp2 H2). specialize (IHp3 H3). destruct (tangent b v p2), (tangent b v p3); cbn in *; auto.
Qed.

(** * Derivatives *)
Lemma derive_powerRZ x n : (0 <= n)%Z \/ x <> 0 -> is_derive (fun y => powerRZ y n) x (IZR n * powerRZ x (n - 1)).
Proof.
  intros H. destruct n as [|p|p].
  - cbn [powerRZ]. replace (0 * powerRZ x (0 - 1)) with 0 by ring. apply (is_derive_const (K := R_AbsRing) (V := R_NormedModule)).
  - cbn [powerRZ]. assert (E : powerRZ x (Z.pos p - 1) = x ^ pred (Pos.to_nat p)).
    { destruct (Pos.to_nat p) as [|m] eqn:Em; [pose proof (Pos2Nat.is_pos p); lia|]. cbn [pred]. replace (Z.pos p - 1)%Z with (Z.of_nat m) by lia. symmetry. apply pow_powerRZ. }
    rewrite E. replace (IZR (Z.pos p)) with (INR (Pos.to_nat p)) by (rewrite INR_IPR; reflexivity). auto_derive; [exact I|]. ring.
  - assert (N : x <> 0) by (destruct H; [lia|assumption]). assert (Q := pow_nonzero x (Pos.to_nat p) N).
    cbn [powerRZ]. assert (E : powerRZ x (Z.neg p - 1) = / x ^ S (Pos.to_nat p)).
    { replace (Z.neg p - 1)%Z with (Z.neg (Pos.succ p)) by lia. cbn [powerRZ]. now rewrite Pos2Nat.inj_succ. }
    rewrite E. replace (IZR (Z.neg p)) with (- INR (Pos.to_nat p)) by (rewrite INR_IPR; reflexivity).
    auto_derive; [exact Q|]. destruct (Pos.to_nat p) as [|m] eqn:Em; [pose proof (Pos2Nat.is_pos p); lia|]. cbn [pred pow]. field. split; [apply pow_nonzero|]; assumption.
Qed.
Lemma move_0 e b v : move e b 0 v = e.
Proof.
  destruct e as [x y]. unfold move. cbn [fst snd].
  assert (X : forall x : array, (fun j => x j + 0 * v j) = x) by (intros z; extensionality j; ring). rewrite !X. now destruct b.
Qed.
Lemma reg_cont f x : ex_derive f x -> continuous (U := R_UniformSpace) f x.
Proof. exact (ex_derive_continuous (K := R_AbsRing) (V := R_NormedModule) f x). Qed.
Lemma cont_lt (f : R -> R) (x c : R) : continuous f x -> f x < c -> locally x (fun t => f t < c).
Proof. intros C H. apply (C (fun y => y < c)). exact (locally_open (T := R_UniformSpace) _ _ (open_lt c) (fun _ h => h) _ H). Qed.
Lemma cont_gt (f : R -> R) (x c : R) : continuous f x -> c < f x -> locally x (fun t => c < f t).
Proof. intros C H. apply (C (fun y => c < y)). exact (locally_open (T := R_UniformSpace) _ _ (open_gt c) (fun _ h => h) _ H). Qed.

Lemma dval (f : R -> R) (x l l' : R) : is_derive f x l -> l = l' -> is_derive f x l'. Proof. now intros H <-. Qed.
Lemma d_plus (f g : R -> R) (x a c : R) : is_derive f x a -> is_derive g x c -> is_derive (fun t => f t + g t) x (a + c).
Proof. exact (is_derive_plus (K := R_AbsRing) (V := R_NormedModule) f g x a c). Qed.
Lemma d_minus (f g : R -> R) (x a c : R) : is_derive f x a -> is_derive g x c -> is_derive (fun t => f t - g t) x (a - c).
Proof. exact (is_derive_minus (K := R_AbsRing) (V := R_NormedModule) f g x a c). Qed.
Lemma d_opp (f : R -> R) (x a : R) : is_derive f x a -> is_derive (fun t => - f t) x (- a).
Proof. exact (is_derive_opp (K := R_AbsRing) (V := R_NormedModule) f x a). Qed.
Lemma d_mult (f g : R -> R) (x a c : R) : is_derive f x a -> is_derive g x c -> is_derive (fun t => f t * g t) x (a * g x + f x * c).
Proof. intros H1 H2. apply (is_derive_mult (K := R_AbsRing) f g x a c H1 H2). intros n m. apply Rmult_comm. Qed.
Lemma d_comp (g f : R -> R) (x a c : R) : is_derive g (f x) c -> is_derive f x a -> is_derive (fun t => g (f t)) x (a * c).
Proof. intros H1 H2. exact (is_derive_comp (K := R_AbsRing) (V := R_NormedModule) g f x c a H1 H2). Qed.
Lemma d_div (f g : R -> R) (x a c : R) : is_derive f x a -> is_derive g x c -> g x <> 0 -> is_derive (fun t => f t / g t) x ((a * g x - f x * c) / g x ^ 2).
Proof. exact (is_derive_div f g x a c). Qed.
Lemma d_const (c x : R) : is_derive (fun _ : R => c) x 0.
Proof. apply (is_derive_const (K := R_AbsRing) (V := R_NormedModule)). Qed.

Lemma pow_m2 y : powerRZ y (-2) = / (y * (y * 1)). Proof. reflexivity. Qed.

Section Line.
Variables (e : env) (b : bool) (v : array).
Notation at_ t := (move e b t v).
Lemma prog_derive p : reg e p -> is_derive (fun t => pval (at_ t) p) 0 (pval e (pjvp b p v)).
Proof.
  unfold pjvp. assert (M := move_0 e b v).
  induction p; cbn [reg tangent pval]; intros H.
  - unfold arg, move. destruct b, b0; cbn [Bool.eqb or_zero pval fst snd]; try apply d_const.
    + eapply dval; [exact (d_plus _ _ _ _ _ (d_const (snd e i) 0) (d_mult (fun t => t) _ _ _ _ (is_derive_id (K := R_AbsRing) 0) (d_const (v i) 0)))|]. change (0 + (1 * v i + 0 * 0) = v i). ring.
    + eapply dval; [exact (d_plus _ _ _ _ _ (d_const (fst e i) 0) (d_mult (fun t => t) _ _ _ _ (is_derive_id (K := R_AbsRing) 0) (d_const (v i) 0)))|]. change (0 + (1 * v i + 0 * 0) = v i). ring.
  - apply d_const.
  - specialize (IHp1 (proj1 H)). specialize (IHp2 (proj2 H)). eapply dval; [exact (d_plus _ _ _ _ _ IHp1 IHp2)|].
    destruct (tangent b v p1), (tangent b v p2); cbn [or_zero pval]; ring.
  - specialize (IHp1 (proj1 H)). specialize (IHp2 (proj2 H)). eapply dval; [exact (d_minus _ _ _ _ _ IHp1 IHp2)|].
    destruct (tangent b v p1), (tangent b v p2); cbn [or_zero pval]; ring.
  - specialize (IHp1 (proj1 H)). specialize (IHp2 (proj2 H)). eapply dval; [exact (d_mult _ _ _ _ _ IHp1 IHp2)|].
    cbv beta; rewrite M. destruct (tangent b v p1), (tangent b v p2); cbn [or_zero pval]; ring.
  - destruct H as (H1 & H2 & H3). specialize (IHp1 H1). specialize (IHp2 H2).
    eapply dval; [apply (d_div _ _ _ _ _ IHp1 IHp2); cbv beta; now rewrite M|].
    cbv beta; rewrite M. destruct (tangent b v p1), (tangent b v p2); cbn [or_zero pval]; rewrite ?pow_m2; field; exact H3.
  - specialize (IHp H). eapply dval; [exact (d_opp _ _ _ IHp)|]. destruct (tangent b v p); cbn [option_map or_zero pval]; ring.
  - specialize (IHp H). eapply dval; [exact (d_comp exp _ _ _ _ (is_derive_exp _) IHp)|]. cbv beta; rewrite M. destruct (tangent b v p); cbn [option_map or_zero pval]; ring.
  - destruct H as [H1 H2]. specialize (IHp H1). eapply dval; [refine (d_comp sqrt _ _ _ (/ (2 * sqrt (pval e p))) _ IHp)|].
    { cbv beta; rewrite M. auto_derive; [exact H2|]. field. intros E. apply sqrt_eq_0 in E; lra. }
    destruct (tangent b v p); cbn [option_map or_zero pval]; [field; intros E; apply sqrt_eq_0 in E; lra|ring].
  - specialize (IHp H). eapply dval; [exact (d_comp sin _ _ _ _ (is_derive_sin _) IHp)|]. cbv beta; rewrite M. destruct (tangent b v p); cbn [option_map or_zero pval]; ring.
  - specialize (IHp H). eapply dval; [exact (d_comp cos _ _ _ _ (is_derive_cos _) IHp)|]. cbv beta; rewrite M. destruct (tangent b v p); cbn [option_map or_zero pval]; ring.
  - destruct H as [H1 H2]. specialize (IHp H1). eapply dval; [refine (d_comp (fun y => powerRZ y n) _ _ _ (IZR n * powerRZ (pval e p) (n - 1)) _ IHp)|].
    { cbv beta; rewrite M. now apply derive_powerRZ. }
    destruct (tangent b v p); cbn [option_map or_zero pval]; [|ring]. destruct (Z.eqb_spec n 0) as [->|]; cbn [pval]; ring.
  - destruct H as (H1 & H2 & H3 & H4). specialize (IHp1 H1). specialize (IHp2 H2). specialize (IHp3 H3).
    assert (K : continuous (fun t => pval (at_ t) p1) 0) by (apply reg_cont; eexists; exact IHp1).
    assert (E : pval e (or_zero (match tangent b v p2, tangent b v p3 with None, None => None | s, t => Some (PWhere p1 (or_zero s) (or_zero t)) end)) =
      if Rle_dec (pval e p1) 1 then pval e (or_zero (tangent b v p2)) else pval e (or_zero (tangent b v p3))).
    { destruct (tangent b v p2), (tangent b v p3); cbn [or_zero pval]; try reflexivity. now destruct (Rle_dec (pval e p1) 1). }
    rewrite E. clear E. destruct (Rle_dec (pval e p1) 1) as [L|L].
    + eapply (is_derive_ext_loc (K := R_AbsRing) (V := R_NormedModule)); [|exact IHp2].
      assert (K' := cont_lt _ 0 1 K). cbv beta in K'; rewrite M in K'. specialize (K' ltac:(lra)). revert K'. apply filter_imp. intros t Ht. destruct (Rle_dec (pval (at_ t) p1) 1); [reflexivity|lra].
    + eapply (is_derive_ext_loc (K := R_AbsRing) (V := R_NormedModule)); [|exact IHp3].
      assert (K' := cont_gt _ 0 1 K). cbv beta in K'; rewrite M in K'. specialize (K' ltac:(lra)). revert K'. apply filter_imp. intros t Ht. destruct (Rle_dec (pval (at_ t) p1) 1); [lra|reflexivity].
Qed.
Lemma prog_cont p : reg e p -> continuous (fun t => pval (at_ t) p) 0.
Proof. intros H. apply reg_cont. eexists. apply prog_derive, H. Qed.
Lemma nz_near (f : R -> R) (c : R) : continuous f 0 -> f 0 <> c -> locally 0 (fun t => f t <> c).
Proof.
  intros K N. destruct (Rtotal_order (f 0) c) as [L|[L|L]]; [|contradiction|].
  - generalize (cont_lt f 0 c K L). apply filter_imp. intros; lra.
  - generalize (cont_gt f 0 c K L). apply filter_imp. intros; lra.
Qed.
Lemma reg_near p : reg e p -> locally 0 (fun t => reg (at_ t) p).
Proof.
  assert (M := move_0 e b v).
  induction p; cbn [reg]; intros H; try (now apply filter_forall); try (now apply IHp); try (apply filter_and; [apply IHp1|apply IHp2]; tauto).
  - destruct H as (H1 & H2 & H3). apply filter_and; [now apply IHp1|]. apply filter_and; [now apply IHp2|].
    apply (nz_near (fun t => pval (at_ t) p2)); [now apply prog_cont|]. cbv beta; now rewrite M.
  - destruct H as [H1 H2]. apply filter_and; [now apply IHp|]. apply (cont_gt (fun t => pval (at_ t) p)); [now apply prog_cont|]. cbv beta; now rewrite M.
  - destruct H as [H1 H2]. apply filter_and; [now apply IHp|]. destruct H2 as [H2|H2].
    + apply filter_forall. now left.
    + assert (X : locally 0 (fun t => pval (at_ t) p <> 0)). { apply (nz_near (fun t => pval (at_ t) p)); [now apply prog_cont|]. cbv beta; now rewrite M. }
      revert X. apply filter_imp. now right.
  - destruct H as (H1 & H2 & H3 & H4). apply filter_and; [now apply IHp1|]. apply filter_and; [now apply IHp2|]. apply filter_and; [now apply IHp3|].
    apply (nz_near (fun t => pval (at_ t) p1)); [now apply prog_cont|]. cbv beta; now rewrite M.
Qed.
End Line.

(** * Iterated derivatives *)
Section Chain.
Variable V : env -> Prop.
Hypothesis Vopen : forall e b v, V e -> locally 0 (fun t => V (move e b t v)).
(** [Q n p]: [p] has values on [V], and can be differentiated [n] times there. *)
Variable Q : nat -> prog -> Prop.
Hypothesis Qrun : forall n p e, Q n p -> V e -> run e p = Fin (pval e p).
Hypothesis Qstep : forall n p b v, Q (S n) p -> Q n (pjvp b p v) /\ forall e, V e -> is_derive (fun t => pval (move e b t v) p) 0 (pval e (pjvp b p v)).
Lemma chain_ok : forall ds p (f : env -> R), Q (length ds) p -> (forall e, V e -> f e = pval e p) ->
  forall e, V e -> run e (iterate p ds) = Fin (derivs ds f e) /\ differentiable ds f e.
Proof.
  induction ds as [|[b v] ds IH]; intros p f HQ Hf e He.
  - split; [|intros [|? ?] ? ? ? E; discriminate]. cbn [iterate derivs fold_left]. rewrite (Hf e He). now apply (Qrun 0).
  - destruct (Qstep _ _ b v HQ) as [HQ' HD].
    assert (D : forall e, V e -> is_derive (fun t => f (move e b t v)) 0 (pval e (pjvp b p v))).
    { intros e' He'. eapply (is_derive_ext_loc (K := R_AbsRing) (V := R_NormedModule)); [|exact (HD e' He')].
      generalize (Vopen e' b v He'). apply filter_imp. intros t Ht. symmetry. now apply Hf. }
    destruct (IH (pjvp b p v) (along f (b, v)) HQ') with (e := e) as [I1 I2]; [|exact He|].
    { intros e' He'. unfold along. cbn [fst snd]. apply is_derive_unique, D, He'. }
    split; [exact I1|]. intros [|d ds1] b' v' ds2 E; cbn [app] in E; injection E.
    + intros _ <- <-. cbn [derivs fold_left]. eexists. exact (D e He).
    + intros E' <-. cbn [derivs fold_left]. exact (I2 ds1 b' v' ds2 E').
Qed.
End Chain.
(** Programs without singularity at the points. *)
Theorem regular_ok p ds e : reg e p -> run e (iterate p ds) = Fin (derivs ds (fun e => pval e p) e) /\ differentiable ds (fun e => pval e p) e.
Proof.
  intros H. apply (chain_ok (fun e => reg e p) (fun e b v => reg_near e b v p) (fun _ q => forall e, reg e p -> reg e q)) with (p := p); auto.
  - intros _ q e' Hq He'. apply run_reg. auto.
  - intros _ q b v Hq. split; [intros e' He'; apply reg_tangent; auto|]. intros e' He'. apply prog_derive. auto.
Qed.
