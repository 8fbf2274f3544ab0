From Coq Require Import List Arith Lia Bool Field_theory Ring.
From Verif Require Import Base NdArray NdData BlockModel CovModel CovSpec.
Import ListNotations.

Lemma fold_mul s a : fold_left Nat.mul s a = a * size s.
Proof. revert a. induction s as [|d s IH]; intros a; [cbn; lia|]. cbn [fold_left]. rewrite IH. change (size (d :: s)) with (d * size s). lia. Qed.
Lemma fold_mul1 s : fold_left Nat.mul s 1 = size s.
Proof. rewrite fold_mul. lia. Qed.
Lemma ravel2 r c i j : ravel [r; c] [i; j] = i * c + j.
Proof. cbn. lia. Qed.
Lemma size2 r c : size [r; c] = r * c.
Proof. cbn. lia. Qed.
Lemma valid2 r c i j : i < r -> j < c -> valid_index [r; c] [i; j].
Proof. intros. repeat constructor; assumption. Qed.
Lemma valid2_inv r c l : valid_index [r; c] l -> exists i j, l = [i; j] /\ i < r /\ j < c.
Proof.
  intros H. inversion H as [|i r' l' s L H']; subst. inversion H' as [|j c' l'' s L' H'']; subst. inversion H''. now exists i, j.
Qed.

Section P.
Context {F : fops} (LF : flaws F).

Lemma array_cov_shows (a : nd F) s0 s1 : nshape a = s0 ++ s1 ->
  exists c, array_cov a s0 s1 = Ok c /\ shows c s0 s1 (fun i j => nat_ a (i ++ j)).
Proof.
  intros E. unfold array_cov. rewrite E, shape_eqb_refl. eexists. split; [reflexivity|].
  assert (HM : exists m, cmatrix (ArrayCov s0 s1 a) = Ok m /\ matrix_shows m s0 s1 (fun i j => nat_ a (i ++ j))).
  { unfold cmatrix, csize0, csize1. cbn [cshape0 cshape1]. rewrite !fold_mul1.
    destruct (reshape_ok a [size s0; size s1]) as [b [-> [S H]]]. { now rewrite E, size_app, size2. }
    eexists. split; [reflexivity|]. unfold mat_of_nd. rewrite S. repeat split. cbn [entry].
    intros i j Hi Hj. apply H.
    - rewrite E. now apply valid_index_app.
    - apply valid2; now apply ravel_lt.
    - rewrite E, ravel_app, ravel2 by assumption. lia. }
  repeat split; auto. exists a. repeat split; auto.
Qed.
Lemma array_cov_err (a : nd F) s0 s1 : nshape a <> s0 ++ s1 -> array_cov a s0 s1 = Err ValueError.
Proof. intros E. unfold array_cov. destruct (shape_eqb_spec (nshape a) (s0 ++ s1)); congruence. Qed.

Lemma linop_cov_shows (l : mat F) s0 s1 g : matrix_shows l s0 s1 g ->
  exists c, linop_cov l s0 s1 = Ok c /\ shows c s0 s1 g.
Proof.
  intros [ER [EC H]]. unfold linop_cov. rewrite !fold_mul1, ER, EC, !Nat.eqb_refl. eexists. split; [reflexivity|].
  repeat split; eauto.
  - cbn [carray]. destruct (reshape_ok (nd_of_mat l) (s0 ++ s1)) as [b [-> [S B]]].
    { cbn [nd_of_mat nshape]. now rewrite ER, EC, size_app, size2. }
    exists b. repeat split; auto. intros i j Hi Hj. rewrite <- H by assumption.
    change (entry l (ravel s0 i) (ravel s1 j)) with (nat_ (nd_of_mat l) [ravel s0 i; ravel s1 j]).
    apply B.
    + cbn [nd_of_mat nshape]. rewrite ER, EC. apply valid2; now apply ravel_lt.
    + now apply valid_index_app.
    + rewrite ravel_app by assumption. cbn [nd_of_mat nshape]. now rewrite ravel2, EC.
  - exists l. split; [reflexivity|]. repeat split; auto.
  - exists l. split; [reflexivity|]. repeat split; auto.
Qed.
Lemma linop_cov_err (l : mat F) s0 s1 : nrows l <> size s0 \/ ncols l <> size s1 -> linop_cov l s0 s1 = Err ValueError.
Proof.
  intros H. unfold linop_cov. rewrite !fold_mul1.
  destruct (Nat.eqb_spec (nrows l) (size s0)), (Nat.eqb_spec (ncols l) (size s1)); cbn; try reflexivity. tauto.
Qed.

Lemma shows_ext (c : covariance F) s0 s1 g h : shows c s0 s1 g ->
  (forall i j, valid_index s0 i -> valid_index s1 j -> g i j = h i j) -> shows c s0 s1 h.
Proof.
  intros [? [? [[a [? [? A]]] [[m [? [? [? M]]]] [l [? [? [? L]]]]]]]] E. unfold shows, array_shows, matrix_shows.
  repeat split; auto; [exists a|exists m|exists l]; repeat split; auto; intros i j Hi Hj; rewrite <- E; auto.
Qed.

Lemma crmul_shows (t : F) c s0 s1 g : shows c s0 s1 g ->
  exists r, crmul (Nd [] (fun _ => t)) c = Ok r /\ shows r s0 s1 (fun i j => fmul t (g i j)).
Proof.
  intros [E0 [E1 [[a [Ea [Sa A]]] [[m [Em [R [C M]]]] _]]]]. destruct c as [u0 u1 b|u0 u1 b]; cbn in E0, E1; subst u0 u1; cbn [crmul nshape nat_].
  - cbn in Ea. injection Ea as ->.
    destruct (array_cov_shows (nd_map (fmul t) a) s0 s1 Sa) as [r [-> S]].
    exists r. split; [reflexivity|]. eapply shows_ext; [exact S|]. intros i j Hi Hj. cbn. now rewrite A.
  - cbn in Em. injection Em as ->. apply linop_cov_shows. repeat split; auto. intros i j Hi Hj. cbn. now rewrite M.
Qed.
Lemma crmul_err (t : nd F) c : nshape t <> [] -> crmul t c = Err TypeError.
Proof. unfold crmul. destruct (nshape t); congruence. Qed.

Lemma cadd_shows c d s0 s1 (g h : index -> index -> F) : shows c s0 s1 g -> shows d s0 s1 h ->
  exists r, cadd c d = Ok r /\ shows r s0 s1 (fun i j => fadd (g i j) (h i j)).
Proof.
  destruct LF as [FT _ _]. pose proof (F_R FT) as RT. 
  assert (comm : forall x y : F, fadd x y = fadd y x) by apply (Radd_comm RT).
  intros Sc Sd. pose proof Sc as [E0 [E1 [[a [Ea [Sa A]]] [[m [Em Mm]] [m' [Em' Mm']]]]]].
  pose proof Sd as [D0 [D1 [[b [Eb [Sb B]]] [[n [En Nn]] [n' [En' Nn']]]]]].
  assert (ADD : forall l1 l2 (g1 g2 : index -> index -> F), matrix_shows l1 s0 s1 g1 -> matrix_shows l2 s0 s1 g2 ->
    matrix_shows (mat_add l1 l2) s0 s1 (fun i j => fadd (g1 i j) (g2 i j))).
  { intros l1 l2 g1 g2 [R1 [C1 H1]] [R2 [C2 H2]]. repeat split; auto. intros i j Hi Hj. cbn. now rewrite H1, H2. }
  destruct c as [u0 u1 a'|u0 u1 l]; cbn in E0, E1; subst u0 u1; cbn [cadd].
  - destruct d as [v0 v1 b'|v0 v1 l]; cbn in D0, D1; subst v0 v1.
    + rewrite !shape_eqb_refl. cbn in Ea, Eb. injection Ea as ->. injection Eb as ->. cbn [andb].
      destruct (array_cov_shows (nd_map2 fadd a b) s0 s1 Sa) as [r [-> S]].
      exists r. split; [reflexivity|]. eapply shows_ext; [exact S|]. intros i j Hi Hj. cbn. now rewrite A, B.
    + unfold cadd_linop. rewrite Em'. cbn [bind cshape0 cshape1]. rewrite !shape_eqb_refl. cbn [andb].
      cbn in En'. injection En' as <-. 
      destruct (linop_cov_shows _ s0 s1 _ (ADD _ _ _ _ Nn' Mm')) as [r [-> S]].
      exists r. split; [reflexivity|]. eapply shows_ext; [exact S|]. intros; cbn; apply comm.
  - unfold cadd_linop. rewrite D0, D1, !shape_eqb_refl, En'. cbn [andb bind]. cbn in Em'. injection Em' as <-.
    now apply linop_cov_shows, ADD.
Qed.
Lemma cadd_err (c d : covariance F) : cshape0 c <> cshape0 d \/ cshape1 c <> cshape1 d -> cadd c d = Err TypeError.
Proof.
  assert (E : forall s0 s1 t0 t1 : shape, s0 <> t0 \/ s1 <> t1 -> shape_eqb s0 t0 && shape_eqb s1 t1 = false).
  { intros s0 s1 t0 t1 H. destruct (shape_eqb_spec s0 t0), (shape_eqb_spec s1 t1); cbn; auto. tauto. }
  intros H. destruct c as [s0 s1 a|s0 s1 a]; cbn [cadd].
  - destruct d as [t0 t1 b|t0 t1 b]; cbn in H.
    + now rewrite E.
    + unfold cadd_linop. cbn [cshape0 cshape1]. rewrite E; [reflexivity|]. intuition congruence.
  - unfold cadd_linop. now rewrite E.
Qed.
Lemma cneg_shows c s0 s1 (g : index -> index -> F) : shows c s0 s1 g ->
  exists r, cneg c = Ok r /\ shows r s0 s1 (fun i j => fopp (g i j)).
Proof.
  destruct LF as [FT _ _]. pose proof (F_R FT) as RT. intros S. unfold cneg. destruct (crmul_shows (fopp f1) c s0 s1 g S) as [r [-> H]].
  exists r. split; [reflexivity|]. eapply shows_ext; [exact H|]. intros i j _ _. cbn.
  pose proof (Ropp_def RT) as OP. 
  assert (K : forall x y : F, fadd x y = f0 -> y = fopp x).
  { intros x y Hx. rewrite <- (Radd_0_l RT y), <- (OP x) at 1. rewrite (Radd_comm RT x), <- (Radd_assoc RT), Hx, (Radd_comm RT), (Radd_0_l RT). reflexivity. }
  apply K. rewrite <- (Rmul_1_l RT (g i j)) at 1. rewrite <- (Rdistr_l RT), OP.
  assert (Z : forall x : F, fmul f0 x = f0).
  { intros x. assert (E : fadd (fmul f0 x) (fmul f0 x) = fmul f0 x) by (rewrite <- (Rdistr_l RT); f_equal; apply (Radd_0_l RT)).
    rewrite <- (OP (fmul f0 x)) at 2. rewrite <- E at 2. rewrite <- (Radd_assoc RT), OP, (Radd_comm RT), (Radd_0_l RT). reflexivity. }
  apply Z.
Qed.
Lemma csub_shows c d s0 s1 (g h : index -> index -> F) : shows c s0 s1 g -> shows d s0 s1 h ->
  exists r, csub c d = Ok r /\ shows r s0 s1 (fun i j => fsub (g i j) (h i j)).
Proof.
  intros Sc Sd. unfold csub. destruct (cneg_shows d s0 s1 h Sd) as [nd [-> Sn]]. cbn [bind].
  destruct (cadd_shows c nd s0 s1 _ _ Sc Sn) as [r [-> S]]. exists r. split; [reflexivity|].
  eapply shows_ext; [exact S|]. intros i j _ _. cbn. destruct LF as [FT _ _]. symmetry. apply (Rsub_def (F_R FT)).
Qed.

(** Shapes are determined. *)
Lemma flatten_ok (e : nd F) : exists v, reshape e [size (nshape e)] = Ok v /\ nshape v = [size (nshape e)] /\
  forall i, valid_index (nshape e) i -> nat_ v [ravel (nshape e) i] = nat_ e i.
Proof.
  destruct (reshape_ok e [size (nshape e)]) as [v [E [S H]]]. { cbn. lia. }
  exists v. repeat split; auto. intros i Hi. apply H; auto.
  - repeat constructor. now apply ravel_lt.
  - cbn. lia.
Qed.
Lemma flatten0_ok c (e : nd F) : nshape e = cshape0 c -> exists v, flatten0 c e = Ok v /\ nshape v = [size (cshape0 c)] /\
  forall i, valid_index (cshape0 c) i -> nat_ v [ravel (cshape0 c) i] = nat_ e i.
Proof. intros E. unfold flatten0. rewrite <- E, shape_eqb_refl. apply flatten_ok. Qed.
Lemma flatten1_ok c (e : nd F) : nshape e = cshape1 c -> exists v, flatten1 c e = Ok v /\ nshape v = [size (cshape1 c)] /\
  forall i, valid_index (cshape1 c) i -> nat_ v [ravel (cshape1 c) i] = nat_ e i.
Proof. intros E. unfold flatten1. rewrite <- E, shape_eqb_refl. apply flatten_ok. Qed.
Lemma flatten0_err c (e : nd F) : nshape e <> cshape0 c -> flatten0 c e = Err ValueError.
Proof. unfold flatten0. destruct (shape_eqb_spec (nshape e) (cshape0 c)); congruence. Qed.
Lemma flatten1_err c (e : nd F) : nshape e <> cshape1 c -> flatten1 c e = Err ValueError.
Proof. unfold flatten1. destruct (shape_eqb_spec (nshape e) (cshape1 c)); congruence. Qed.

Lemma matrix_via_linop c s0 s1 (g : index -> index -> F) : shows c s0 s1 g ->
  exists m c' a a', cmatrix c = Ok m /\ linop_cov m s0 s1 = Ok c' /\ carray c = Ok a /\ carray c' = Ok a' /\ nd_eq a' a.
Proof.
  intros [E0 [E1 [[a [Ea [Sa A]]] [[m [Em Mm]] _]]]].
  destruct (linop_cov_shows m s0 s1 g Mm) as [c' [Ec [_ [_ [[a' [Ea' [Sa' A']]] _]]]]].
  exists m, c', a, a'. repeat split; auto; [congruence|]. rewrite Sa'. intros l Hl.
  apply valid_index_app_inv in Hl as [i [j [-> [Hi Hj]]]]. now rewrite A, A'.
Qed.
Lemma array_via_array c s0 s1 (g : index -> index -> F) : shows c s0 s1 g ->
  exists a c' m m', carray c = Ok a /\ array_cov a s0 s1 = Ok c' /\ cmatrix c = Ok m /\ cmatrix c' = Ok m' /\
    nrows m' = nrows m /\ ncols m' = ncols m /\ forall p q, p < nrows m -> q < ncols m -> entry m' p q = entry m p q.
Proof.
  intros [E0 [E1 [[a [Ea [Sa A]]] [[m [Em [R [C M]]]] _]]]].
  destruct (array_cov_shows a s0 s1 Sa) as [c' [Ec [_ [_ [_ [[m' [Em' [R' [C' M']]]] _]]]]]].
  exists a, c', m, m'. repeat split; auto; try congruence. intros p q Hp Hq. rewrite R in Hp. rewrite C in Hq.
  destruct (ravel_surj _ _ Hp) as [i [Hi <-]]. destruct (ravel_surj _ _ Hq) as [j [Hj <-]].
  now rewrite M', M, A.
Qed.
End P.
