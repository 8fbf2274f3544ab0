(** C71: operators applied to functions with and without a jax program; the operators of the
    problems applied to the attached solutions. *)
From Coq Require Import List Reals Lra Lia Bool Arith ZArith FunctionalExtensionality.
From Coquelicot Require Import Coquelicot.
From Verif Require Import Base DomainModel NdArray PolyModel PolyClassModel FunExprModel FunExprProofs DiffopModel DiffopSpec DiffopProofs DiffopFactor
  LfoModel LfoSpec LfoSmooth LfoSound LfoProps KernelModel PdeModel PdeProps KernelComm AdModel AdSpec AdProofs AdProps PdeProofs ResidualModel.
Import ListNotations.
Open Scope R_scope.

(** * Specification *)
(** The program reads entries of an array of the shape only. *)
Fixpoint reads (sh : shape) (p : prog) : Prop :=
  match p with
  | PVar b i => b = false -> valid_index sh i
  | PCst _ => True
  | PAdd p q | PSub p q | PMul p q | PDiv p q => reads sh p /\ reads sh q
  | PNeg p | PExp p | PSqrt p | PSin p | PCos p | PPow p _ => reads sh p
  | PWhere r p q => reads sh r /\ reads sh p /\ reads sh q
  end.
(** The operators occurring in an expression act on functions on the shape. *)
Fixpoint acts_on (sh : shape) (L : lfo) : Prop :=
  match L with
  | OId _ _ => True
  | ODiff d => d_dom d = sh /\ match d with DPartial a | DPartialNoJax a => mi_wf a | _ => True end
  | OScaled _ M => acts_on sh M
  | OSum Ls | OComp Ls => fold_right (fun M P => acts_on sh M /\ P) True Ls
  end.
(** No derivative is taken. *)
Fixpoint no_derivative (L : lfo) : bool :=
  match L with
  | OId _ _ => true
  | ODiff (DPartial a) | ODiff (DPartialNoJax a) => (mi_order a =? 0)%nat
  | ODiff _ => false
  | OScaled _ M => no_derivative M
  | OSum Ls | OComp Ls => forallb no_derivative Ls
  end.

(** * Programs without singularities are smooth functions *)
Lemma res_ok {A B} (m : result A) (f : A -> result B) b : bind m f = Ok b -> exists a, m = Ok a /\ f a = Ok b.
Proof. destruct m; cbn; [eauto|discriminate]. Qed.
Definition tv (e : points) (p : prog) (v : array) : R := pval e (pjvp false p v).
Lemma tv_var e b i v : tv e (PVar b i) v = if b then 0 else v i.
Proof. destruct b; reflexivity. Qed.
Ltac tvs := unfold tv, pjvp; cbn [tangent]; repeat match goal with |- context [tangent false ?v ?p] => destruct (tangent false v p) end; cbn [option_map or_zero pval]; try ring.
Lemma tv_add e p q v : tv e (PAdd p q) v = tv e p v + tv e q v. Proof. tvs. Qed.
Lemma tv_sub e p q v : tv e (PSub p q) v = tv e p v - tv e q v. Proof. tvs. Qed.
Lemma tv_mul e p q v : tv e (PMul p q) v = pval e q * tv e p v + pval e p * tv e q v. Proof. tvs. Qed.
Lemma tv_div e p q v : tv e (PDiv p q) v = / pval e q * tv e p v + - pval e p * powerRZ (pval e q) (-2) * tv e q v.
Proof. tvs; unfold Rdiv; ring. Qed.
Lemma tv_neg e p v : tv e (PNeg p) v = - 1 * tv e p v. Proof. tvs. Qed.
Lemma tv_exp e p v : tv e (PExp p) v = exp (pval e p) * tv e p v. Proof. tvs. Qed.
Lemma tv_sqrt e p v : tv e (PSqrt p) v = 1 / 2 / sqrt (pval e p) * tv e p v. Proof. tvs. Qed.
Lemma tv_sin e p v : tv e (PSin p) v = cos (pval e p) * tv e p v. Proof. tvs. Qed.
Lemma tv_cos e p v : tv e (PCos p) v = - sin (pval e p) * tv e p v. Proof. tvs. Qed.
Lemma tv_pow e p n v : tv e (PPow p n) v = IZR n * powerRZ (pval e p) (n - 1) * tv e p v.
Proof. unfold tv, pjvp; cbn [tangent]. destruct (tangent false v p); cbn [option_map or_zero pval]; [|ring]. destruct (Z.eqb_spec n 0) as [->|]; cbn [pval]; ring. Qed.
Lemma tv_where e r p q v : tv e (PWhere r p q) v = if Rle_dec (pval e r) 1 then tv e p v else tv e q v.
Proof. tvs; destruct (Rle_dec _ _); reflexivity. Qed.

Section Smooth.
Variable sh : shape.
Notation lin g := (forall v, g v = total (map (fun i => v i * g (unitv i)) (all_indices sh))).
Lemma lin_comb (g h : array -> R) a b : lin g -> lin h -> lin (fun v => a * g v + b * h v).
Proof.
  intros G H v. cbv beta. rewrite (G v), (H v), <- !total_mult, <- total_plus. apply total_ext. intros i _. ring.
Qed.
Lemma lin_scal (g : array -> R) a : lin g -> lin (fun v => a * g v).
Proof. intros G v. cbv beta. rewrite (G v), <- total_mult. apply total_ext. intros i _. ring. Qed.
Lemma lin_ext (g h : array -> R) : (forall v, g v = h v) -> lin h -> lin g.
Proof. intros E H v. rewrite E, H. apply total_ext. intros i _. now rewrite E. Qed.
Lemma tangent_lin e p : reads sh p -> lin (tv e p).
Proof.
  induction p; cbn [reads]; intros H.
  - destruct b.
    + apply (lin_ext _ (fun _ => 0) (fun v => eq_refl)). intros v. symmetry. apply total_zero. intros j _. ring.
    + intros v. change (v i = total (map (fun j => v j * unitv j i) (all_indices sh))). etransitivity; [symmetry|].
      { exact (total_single v (all_indices sh) i (all_nodup sh) (proj2 (all_indices_spec sh i) (H eq_refl))). } apply total_ext. intros j _. unfold unitv.
      destruct (list_eq_dec Nat.eq_dec j i) as [E|N]; destruct (list_eq_dec Nat.eq_dec i j) as [E'|N']; try congruence; try subst j; ring.
  - apply (lin_ext _ (fun _ => 0) (fun v => eq_refl)). intros v. symmetry. apply total_zero. intros j _. ring.
  - apply (lin_ext _ (fun v => 1 * tv e p1 v + 1 * tv e p2 v)); [intros v; rewrite tv_add; ring|]. now apply lin_comb; [apply IHp1|apply IHp2].
  - apply (lin_ext _ (fun v => 1 * tv e p1 v + -1 * tv e p2 v)); [intros v; rewrite tv_sub; ring|]. now apply lin_comb; [apply IHp1|apply IHp2].
  - apply (lin_ext _ _ (tv_mul e p1 p2)). now apply lin_comb; [apply IHp1|apply IHp2].
  - apply (lin_ext _ _ (tv_div e p1 p2)). now apply lin_comb; [apply IHp1|apply IHp2].
  - apply (lin_ext _ _ (tv_neg e p)). now apply lin_scal, IHp.
  - apply (lin_ext _ _ (tv_exp e p)). now apply lin_scal, IHp.
  - apply (lin_ext _ _ (tv_sqrt e p)). now apply lin_scal, IHp.
  - apply (lin_ext _ _ (tv_sin e p)). now apply lin_scal, IHp.
  - apply (lin_ext _ _ (tv_cos e p)). now apply lin_scal, IHp.
  - apply (lin_ext _ _ (tv_pow e p n)). now apply lin_scal, IHp.
  - apply (lin_ext _ _ (tv_where e p1 p2 p3)). destruct (Rle_dec _ _); [apply IHp2|apply IHp3]; tauto.
Qed.
Lemma reads_tangent v p : reads sh p -> reads sh (pjvp false p v).
Proof.
  unfold pjvp. induction p; cbn [reads tangent]; intros H;
    repeat match goal with H : _ /\ _ |- _ => destruct H end;
    repeat match goal with IH : reads sh ?p -> _, H : reads sh ?p |- _ => specialize (IH H) end.
  - destruct b; exact I.
  - exact I.
  - destruct (tangent false v p1), (tangent false v p2); cbn in *; auto.
  - destruct (tangent false v p1), (tangent false v p2); cbn in *; auto.
  - destruct (tangent false v p1), (tangent false v p2); cbn in *; auto.
  - destruct (tangent false v p1), (tangent false v p2); cbn in *; auto 10.
  - destruct (tangent false v p); cbn in *; auto.
  - destruct (tangent false v p); cbn in *; auto.
  - destruct (tangent false v p); cbn in *; auto.
  - destruct (tangent false v p); cbn in *; auto.
  - destruct (tangent false v p); cbn in *; auto.
  - destruct (tangent false v p); cbn in *; auto. destruct (n =? 0)%Z; cbn; auto.
  - destruct (tangent false v p2), (tangent false v p3); cbn in *; auto.
Qed.
Variable x1 : array.
Lemma prog_pd p i x : (forall x, reg (x, x1) p) -> pd i (fun x => pval (x, x1) p) x = pval (x, x1) (pjvp false p (unitv i)).
Proof. intros Rg. apply pd_eq. exact (prog_derive (x, x1) false (unitv i) p (Rg x)). Qed.
Lemma prog_smooth p : reads sh p -> (forall x, reg (x, x1) p) -> smooth sh (fun x => pval (x, x1) p).
Proof.
  intros Hp Rp. apply (smooth_class sh (fun g => exists p, reads sh p /\ (forall x, reg (x, x1) p) /\ g = fun x => pval (x, x1) p)).
  - intros g (q & Hq & Rq & ->) v x. eapply dval; [exact (prog_derive (x, x1) false v q (Rq x))|]. etransitivity; [exact (tangent_lin (x, x1) q Hq v)|].
    apply total_ext. intros i _. f_equal. symmetry. now apply prog_pd.
  - intros g i (q & Hq & Rq & ->) _. exists (pjvp false q (unitv i)). split; [now apply reads_tangent|]. split; [intros x; now apply reg_tangent|].
    extensionality x. now apply prog_pd.
  - exists p. auto.
Qed.
End Smooth.

(** * Operators on programs *)
Lemma order0_sem d f : d_order0 d = true -> dsem d f = f.
Proof.
  assert (G : forall a, mi_order a = 0%nat -> pderiv a f = f).
  { intros a E. unfold pderiv. assert (Z : forall i, mi_entry a i = 0%nat).
    { intros i. unfold mi_entry. unfold mi_order in E. revert E. generalize (mi_arr a) (ravel (mi_shape a) i). clear. induction l as [|n l IH]; intros [|k] E; cbn in *; try lia. apply IH. unfold list_sum. lia. }
    generalize (all_indices (mi_shape a)). induction l as [|i l IH]; [reflexivity|]. cbn [fold_left]. rewrite Z. exact IH. }
  destruct d as [a|a|b s w|s v]; cbn [d_order0 dsem]; intros E; try discriminate; apply G; now apply Nat.eqb_eq.
Qed.
Section Ops.
Variables (sh : shape) (x1 : array).
Definition good (p : prog) : Prop := reads sh p /\ forall x, reg (x, x1) p.
Definition den (p : prog) : array -> R := fun x => pval (x, x1) p.
Lemma good_tangent p v : good p -> good (pjvp false p v).
Proof. intros [H1 H2]. split; [now apply reads_tangent|]. intros x. now apply reg_tangent. Qed.
Lemma good_add p q : good p -> good q -> good (PAdd p q).
Proof. intros [H1 H2] [H3 H4]. split; cbn; auto. Qed.
Lemma good_scal s q : good q -> good (PMul (PCst s) q).
Proof. intros [H3 H4]. split; cbn; auto. Qed.
Lemma good_psum {A} (f : A -> prog) l : (forall a, In a l -> good (f a)) -> good (psum (map f l)).
Proof.
  induction l as [|a l IH]; intros H; [split; cbn; auto|]. cbn [map psum fold_right]. apply good_add; [apply H; now left|]. apply IH. intros b Hb. apply H. now right.
Qed.
Lemma good_fold {A} (f : A -> array) l p : good p -> good (fold_left (fun df a => pjvp false df (f a)) l p).
Proof. revert p. induction l as [|a l IH]; intros p H; [exact H|]. cbn [fold_left]. apply IH. now apply good_tangent. Qed.
Lemma diff_ok d p q : good p -> d_dom d = sh -> match d with DPartial a | DPartialNoJax a => mi_wf a | _ => True end ->
  diff_prog d p = Ok q -> good q /\ den q = dsem d (den p).
Proof.
  intros G D W H. unfold diff_prog in H. destruct (d_order0 d) eqn:O; [injection H as <-; split; [exact G|symmetry; now apply order0_sem]|].
  assert (Ha : ad_op d 0 p = Ok q) by (destruct d; try exact H; destruct (length sh0 <=? 1)%nat; [exact H|discriminate]).
  assert (W' : dwf d). { destruct d; cbn in *; auto; (split; [exact W|]); now apply Nat.eqb_neq. }
  assert (Gq : good q).
  { clear H. destruct d as [a|a|b s w|s v]; cbn [ad_op] in Ha; cbn [Nat.eqb negb] in Ha.
    - destruct (factorize_first_order a) as [fs|]; [|discriminate]. injection Ha as <-. now apply good_fold.
    - discriminate.
    - injection Ha as <-. apply good_psum. intros i _. apply good_scal. now do 2 apply good_tangent.
    - injection Ha as <-. now apply good_tangent. }
  split; [exact Gq|].
  assert (E : exists T, jax_op d = Ok T /\ jax_fallback d (den p) = Ok (T (den p))).
  { destruct d as [a|a|b s w|s v]; cbn [ad_op jax_op jax_fallback] in *.
    - destruct (factorize_first_order a) as [fs|]; [|discriminate]. cbn [bind]. eauto.
    - discriminate.
    - destruct (length s <=? 1)%nat; [eauto|discriminate].
    - eauto. }
  destruct E as (T & HT & HF). rewrite <- (jax_fn d (den p) (T (den p)) W'); [|rewrite D; apply prog_smooth; apply G|exact HF].
  extensionality x. assert (Q := op_run p (fun x y => pval (x, y) p) d 0 q T x x1 Ha HT). cbn [Nat.eqb] in Q. 
  assert (Q' : run (x, x1) q = Fin (T (den p) x)) by (apply Q; intros ds _; rewrite (proj1 (regular_ok p ds (x, x1) (proj2 G x))); f_equal; f_equal; extensionality e; now destruct e).
  rewrite (run_reg _ _ (proj2 Gq x)) in Q'. now injection Q'.
Qed.
Lemma acts_in Ls : fold_right (fun M P => acts_on sh M /\ P) True Ls -> forall M, In M Ls -> acts_on sh M.
Proof. induction Ls as [|L Ls IH]; intros H M I; [destruct I|]. destruct H as [H1 H2], I as [<-|I]; auto. Qed.
Lemma comp_prog Ls p : op_prog (OComp Ls) p = fold_right (fun M acc => bind acc (op_prog M)) (Ok p) Ls.
Proof.
  cbn [op_prog]. rewrite <- (fold_left_rev_right (fun y (x : result prog) => bind x y) (rev (map op_prog Ls)) (Ok p)), rev_involutive. induction Ls as [|M Ls IH]; [reflexivity|]. cbn [map fold_right]. now rewrite IH.
Qed.
Lemma op_ok L : acts_on sh L -> forall p q, good p -> op_prog L p = Ok q ->
  good q /\ forall F : array -> array, (forall x, F x [] = den p x) -> forall x, osem L F x [] = den q x.
Proof.
  induction L as [dom cod|d|s L IH|Ls IH|Ls IH] using lfo_induction; cbn [acts_on]; intros A p q G H.
  - injection H as <-. auto.
  - destruct (diff_ok d p q G (proj1 A) (proj2 A) H) as [Gq E]. split; [exact Gq|]. intros F EF x. cbn [osem]. rewrite E. f_equal. extensionality y. apply EF.
  - cbn [op_prog] in H. apply res_ok in H as (r & Hr & [= <-]). destruct (IH A p r G Hr) as [Gr E]. split; [now apply good_scal|]. intros F EF x. cbn [osem]. rewrite (E F EF). reflexivity.
  - assert (A' := acts_in Ls A). clear A. cbn [op_prog] in H. destruct Ls as [|M Ms]; [discriminate|].
    assert (X : forall Ns, (forall N, In N Ns -> In N (M :: Ms)) -> forall a q, good a ->
      fold_left (fun acc N => bind acc (fun a => bind (op_prog N p) (fun b => Ok (PAdd a b)))) Ns (Ok a) = Ok q ->
      good q /\ forall F : array -> array, (forall x, F x [] = den p x) -> forall x, den a x + total (map (fun N => osem N F x []) Ns) = den q x).
    { induction Ns as [|N Ns IHn]; intros I a r Ga Hr; cbn [fold_left] in Hr.
      - injection Hr as <-. split; [exact Ga|]. intros F _ x. unfold total. cbn. ring.
      - cbn [bind] in Hr. destruct (op_prog N p) as [b|] eqn:Eb; cbn [bind] in Hr.
        + assert (IN : In N (M :: Ms)) by (apply I; now left). destruct (IH N IN (A' N IN) p b G Eb) as [Gb Vb].
          destruct (IHn (fun K HK => I K (or_intror HK)) (PAdd a b) r (good_add _ _ Ga Gb) Hr) as [Gr Vr]. split; [exact Gr|].
          intros F EF x. rewrite <- (Vr F EF x). unfold total. cbn [map fold_right]. rewrite (Vb F EF x). unfold den. cbn [pval]. ring.
        + exfalso. revert Hr. clear. induction Ns as [|K Ns IHk]; cbn [fold_left]; [discriminate|exact IHk]. }
    destruct (op_prog M p) as [a|] eqn:Ea.
    + destruct (IH M (or_introl eq_refl) (A' M (or_introl eq_refl)) p a G Ea) as [Ga Va]. destruct (X Ms (fun N HN => or_intror HN) a q Ga H) as [Gq V]. split; [exact Gq|].
      intros F EF x. cbn [osem map]. unfold total. cbn [fold_right]. rewrite (Va F EF x). exact (V F EF x).
    + exfalso. revert H. clear. induction Ms as [|K Ns IHk]; cbn [fold_left]; [discriminate|exact IHk].
  - assert (A' := acts_in Ls A). clear A. rewrite comp_prog in H. cbn [osem]. revert q H. induction Ls as [|M Ls IHl]; intros q H; cbn [fold_right] in *.
    + injection H as <-. auto.
    + apply res_ok in H as (r & Hr & H). destruct (IHl (fun K HK => IH K (or_intror HK)) (fun K HK => A' K (or_intror HK)) r Hr) as [Gr Vr].
      destruct (IH M (or_introl eq_refl) (A' M (or_introl eq_refl)) r q Gr H) as [Gq Vq]. split; [exact Gq|]. intros F EF x. apply Vq. intros y. now apply Vr.
Qed.
End Ops.

(** * C71 *)
(** For every operator expression, what automatic differentiation computes is the operator applied
    to the function, if the program has no singularity. *)
Theorem C71_operator : forall sh L p q x1, acts_on sh L -> reads sh p -> (forall x : array, reg (x, x1) p) -> op_prog L p = Ok q ->
  forall x : array, run (x, x1) q = Fin (osem L (fun y _ => pval (y, x1) p) x []).
Proof.
  intros sh L p q x1 A H1 H2 H x. destruct (op_ok sh x1 L A p q (conj H1 H2) H) as [[_ G] V]. rewrite (run_reg _ _ (G x)). f_equal.
  symmetry. apply V. reflexivity.
Qed.
Print Assumptions C71_operator.

(** When the operator can be applied: every sum has a summand, and no derivative is one of the
    operators without automatic differentiation. *)
Fixpoint applicable (L : lfo) : Prop :=
  match L with
  | OId _ _ => True
  | ODiff d => match d with DPartialNoJax a => mi_order a = 0%nat | DLap _ s _ => (length s <= 1)%nat | _ => True end
  | OScaled _ M => applicable M
  | OSum Ls => Ls <> [] /\ fold_right (fun M P => applicable M /\ P) True Ls
  | OComp Ls => fold_right (fun M P => applicable M /\ P) True Ls
  end.
Lemma applicable_in Ls : fold_right (fun M P => applicable M /\ P) True Ls -> forall M, In M Ls -> applicable M.
Proof. induction Ls as [|L Ls IH]; intros H M I; [destruct I|]. destruct H as [H1 H2], I as [<-|I]; auto. Qed.
Theorem C71_accepts : forall sh L p, acts_on sh L -> applicable L -> exists q, op_prog L p = Ok q.
Proof.
  intros sh L. induction L as [dom cod|d|s L IH|Ls IH|Ls IH] using lfo_induction; cbn [acts_on applicable]; intros p A B.
  - eauto using eq_refl.
  - cbn [op_prog]. unfold diff_prog. destruct (d_order0 d) eqn:O; [eauto|]. destruct d as [a|a|b s w|s v]; cbn [ad_op d_order0] in *.
    + apply Nat.eqb_neq in O. unfold factorize_first_order. fold (ffo_list a). assert (E := ffo_length a (proj2 A)). destruct (ffo_list a); [cbn in E; lia|]. cbn [composite_of bind]. eauto.
    + rewrite B in O. discriminate.
    + rewrite (proj2 (Nat.leb_le _ _) B). eauto.
    + eauto.
  - cbn [op_prog]. destruct (IH p A B) as (q & ->). cbn [bind]. eauto.
  - destruct B as [N B]. assert (A' := acts_in sh Ls A). assert (B' := applicable_in Ls B). clear A B. destruct Ls as [|M Ms]; [now elim N|]. cbn [op_prog].
    destruct (IH M (or_introl eq_refl) p (A' M (or_introl eq_refl)) (B' M (or_introl eq_refl))) as (a & ->).
    assert (K : forall N, In N Ms -> exists b, op_prog N p = Ok b) by (intros K HK; apply IH; [now right|apply A'; now right|apply B'; now right]). clear - K. revert a. induction Ms as [|N Ms IHn]; intros a; cbn [fold_left]; [eauto|].
    destruct (K N (or_introl eq_refl)) as (b & ->). cbn [bind]. apply IHn. intros M HM. apply K. now right.
  - assert (A' := acts_in sh Ls A). assert (B' := applicable_in Ls B). clear A B. rewrite comp_prog. induction Ls as [|M Ls IHl]; [cbn; eauto|]. cbn [fold_right].
    destruct IHl as (q & ->); [intros; apply IH; auto; now right|intros; apply A'; now right|intros; apply B'; now right|]. cbn [bind].
    apply IH; [now left|apply A'; now left|apply B'; now left].
Qed.
Theorem C71_errors : forall p, op_prog (OSum []) p = Err TypeError /\ (forall h x, op_numpy (OSum []) h x = Err TypeError) /\
  (forall a h x, mi_order a <> 0%nat -> op_numpy (ODiff (DPartialNoJax a)) h x = Err NotImplementedError) /\
  (forall a, mi_order a <> 0%nat -> op_prog (ODiff (DPartialNoJax a)) p = Err NotImplementedError) /\
  (forall s L Ls M e, op_prog L p = Err e -> op_prog (OScaled s L) p = Err e /\ op_prog (OSum (L :: Ls)) p = Err e /\ op_prog (OComp [M; L]) p = Err e).
Proof.
  intros p. split; [reflexivity|]. split; [reflexivity|]. split; [|split].
  - intros a h x O. cbn [op_numpy]. unfold diff_numpy. cbn [d_order0]. now rewrite (proj2 (Nat.eqb_neq _ _) O).
  - intros a O. cbn [op_prog]. unfold diff_prog. cbn [d_order0]. rewrite (proj2 (Nat.eqb_neq _ _) O). reflexivity.
  - intros s L Ls M e H. cbn [op_prog]. rewrite H. split; [reflexivity|]. split; [|cbn; now rewrite H]. induction Ls as [|K Ks IHk]; cbn [fold_left]; [reflexivity|exact IHk].
Qed.

(** Functions without a jax program: without derivatives the operator applied to the function,
    otherwise an error. *)
Fixpoint nojax_free (L : lfo) : bool :=
  match L with
  | OId _ _ => true
  | ODiff (DPartialNoJax _) => false
  | ODiff _ => true
  | OScaled _ M => nojax_free M
  | OSum Ls => negb (length Ls =? 0)%nat && forallb nojax_free Ls
  | OComp Ls => forallb nojax_free Ls
  end.
Lemma comp_numpy Ls h : op_numpy (OComp Ls) h = fold_right (fun M g => op_numpy M g) h Ls.
Proof.
  cbn [op_numpy]. rewrite <- (fold_left_rev_right (fun (y : (array -> result R) -> array -> result R) (x : array -> result R) => y x) (rev (map op_numpy Ls)) h), rev_involutive. induction Ls as [|M Ls IH]; [reflexivity|]. cbn [map fold_right]. now rewrite IH.
Qed.
Definition evaluates (h : array -> result R) (F : array -> array) : Prop := forall x, h x = Ok (F x []).
Definition broken (h : array -> result R) : Prop := forall x, h x = Err TypeError.
Lemma numpy_ok L : nojax_free L = true ->
  (forall h F, evaluates h F -> if no_derivative L then evaluates (op_numpy L h) (osem L F) else broken (op_numpy L h)) /\
  (forall h, broken h -> broken (op_numpy L h)).
Proof.
  induction L as [dom cod|d|s L IH|Ls IH|Ls IH] using lfo_induction; cbn [nojax_free no_derivative]; intros N.
  - split; [intros h F E; exact E|intros h E; exact E].
  - destruct d as [a|a|b sh w|sh v]; try discriminate; cbn [op_numpy]; unfold diff_numpy; cbn [d_order0].
    + destruct (Nat.eqb_spec (mi_order a) 0) as [O|O]; (split; [|intros h B]).
      * intros h F E x. cbn [osem]. rewrite (order0_sem (DPartial a)); [apply E|]. cbn. now apply Nat.eqb_eq.
      * exact B.
      * intros h F E x. reflexivity.
      * intros x. reflexivity.
    + split; [intros h F E x; reflexivity|intros h B x; reflexivity].
    + split; [intros h F E x; reflexivity|intros h B x; reflexivity].
  - destruct (IH N) as [I1 I2]. cbn [op_numpy]. split.
    + intros h F E. specialize (I1 h F E). destruct (no_derivative L); intros x; rewrite (I1 x); reflexivity.
    + intros h B x. rewrite (I2 h B x). reflexivity.
  - apply andb_true_iff in N as [N0 N]. destruct Ls as [|M Ms]; [discriminate|]. cbn [op_numpy].
    assert (N' := proj1 (forallb_forall _ _) N). clear N N0.
    assert (S : forall e (f : lfo -> result R) Ns, fold_left (fun acc K => bind acc (fun a => bind (f K) (fun b => Ok (a + b)))) Ns (Err e) = Err e)
      by (intros e f; induction Ns as [|K Ns IHn]; [reflexivity|exact IHn]).
    split.
    + intros h F E.
      assert (X : forall Ns, (forall K, In K Ns -> In K (M :: Ms)) -> forall x a, fold_left (fun acc K => bind acc (fun a => bind (op_numpy K h x) (fun b => Ok (a + b)))) Ns (Ok a)
        = if forallb no_derivative Ns then Ok (a + total (map (fun K => osem K F x []) Ns)) else Err TypeError).
      { induction Ns as [|K Ns IHn]; intros I x a; cbn [fold_left forallb map]; [f_equal; unfold total; cbn; ring|].
        assert (IK : In K (M :: Ms)) by (apply I; now left). assert (J := proj1 (IH K IK (N' K IK)) h F E). cbn [bind]. destruct (no_derivative K); cbn [andb].
        - rewrite (J x). cbn [bind]. rewrite IHn by (intros; apply I; now right). destruct (forallb no_derivative Ns); [|reflexivity]. f_equal. unfold total. cbn. ring.
        - rewrite (J x). cbn [bind]. apply S. }
      assert (J := proj1 (IH M (or_introl eq_refl) (N' M (or_introl eq_refl))) h F E). cbn [forallb]. destruct (no_derivative M); cbn [andb].
      * assert (X' := fun x => X Ms (fun K HK => or_intror HK) x (osem M F x [])). destruct (forallb no_derivative Ms); intros x; rewrite (J x); apply X'.
      * intros x. rewrite (J x). apply S.
    + intros h B x. rewrite (proj2 (IH M (or_introl eq_refl) (N' M (or_introl eq_refl))) h B x). apply S.
  - assert (N' := proj1 (forallb_forall _ _) N). clear N. cbn [osem]. split.
    + intros h F E. rewrite comp_numpy. induction Ls as [|M Ls IHl]; cbn [fold_right forallb]; [exact E|].
      specialize (IHl (fun K HK => IH K (or_intror HK)) (fun K HK => N' K (or_intror HK))). destruct (IH M (or_introl eq_refl) (N' M (or_introl eq_refl))) as [I1 I2].
      destruct (forallb no_derivative Ls).
      * rewrite andb_true_r. exact (I1 _ _ IHl).
      * rewrite andb_false_r. exact (I2 _ IHl).
    + intros h B. rewrite comp_numpy. induction Ls as [|M Ls IHl]; cbn [fold_right]; [exact B|].
      apply (IH M (or_introl eq_refl) (N' M (or_introl eq_refl))). apply IHl; intros K HK; [apply IH|apply N']; now right.
Qed.
Theorem C71_numpy : forall L f x, nojax_free L = true ->
  op_value L (NumpyFn f) x = if no_derivative L then Ok (Fin (osem L (fun y _ => f y) x [])) else Err TypeError.
Proof.
  intros L f x N. cbn [op_value]. assert (J := proj1 (numpy_ok L N) (fun y => Ok (f y)) (fun y _ => f y) (fun y => eq_refl)).
  destruct (no_derivative L); rewrite (J x); reflexivity.
Qed.
Print Assumptions C71_numpy.

(** * The attached solutions *)
Lemma poisson_good l r c gl gr alpha (x1 : array) : reads [] (poisson_prog l r c gl gr alpha) /\ forall x : array, reg (x, x1) (poisson_prog l r c gl gr alpha).
Proof. split; [|intros x]; cbn; auto 20. split; auto. repeat split; intros _; constructor. Qed.
(** The operator of the Poisson equation applied to the solution that is attached for constant
    right-hand sides gives the right-hand side at every point. *)
Theorem C71_poisson : forall dom dt l r f c gl gr alpha p s, asdomain dom = Ok (Interval dt l r) -> l < r -> alpha <> 0 ->
  poisson_equation dom f alpha = Ok p -> poisson_constant dom c gl gr alpha = Ok s ->
  (forall x, op_value (OId [] []) (poisson_solution l r c gl gr alpha) x = Ok (Fin (feval s x []))) /\
  (forall x, op_value (pde_op p) (poisson_solution l r c gl gr alpha) x = Ok (Fin c)).
Proof.
  intros dom dt l r f c gl gr alpha p s D Hlr Ha Hp Hs. rewrite (poisson_constant_ok dom dt l r c gl gr alpha D Hlr Ha) in Hs. injection Hs as <-.
  destruct (quad_ok l r gl gr c alpha Hlr Ha) as (D1 & D2 & _ & _). split; [reflexivity|]. intros x.
  assert (EL : pde_op p = o_scale (- alpha) (ODiff (DLap true [] (fun _ => 1)))).
  { unfold poisson_equation in Hp. rewrite D in Hp. cbn [bind] in Hp. apply C49_pde in Hp. now destruct Hp as (-> & _). }
  rewrite EL. set (L := o_scale _ _). destruct (poisson_good l r c gl gr alpha x) as [P1 P2].
  assert (AL : acts_on [] L) by (cbn; auto).
  destruct (C71_accepts [] L (poisson_prog l r c gl gr alpha) AL) as (q & Hq); [cbn; lia|].
  cbn [op_value poisson_solution]. rewrite Hq. cbn [bind]. rewrite (C71_operator [] L _ q x AL P1 P2 Hq x). do 2 f_equal.
  unfold L. rewrite (laplace_1d alpha true (quad l r gl gr c alpha) (quad' l r gl gr c alpha) _ x (c / - alpha)); [field; lra|reflexivity|exact D1|apply D2].
Qed.
Print Assumptions C71_poisson.

(** The formula of the solution of the heat equation, written for automatic differentiation: the
    operator of the heat equation gives zero at every point. *)
Lemma heat_good t0 l r alpha cs (x1 : array) : reads [2%nat] (heat_prog t0 l r alpha cs) /\ forall x : array, reg (x, x1) (heat_prog t0 l r alpha cs).
Proof.
  apply (good_psum [2%nat] x1). intros [c w] _. split; [|intros x; cbn; auto 20]. cbn. repeat split; intros _; unfold valid_index; repeat constructor.
Qed.
Lemma heat_den t0 l r alpha cs e : pval e (heat_prog t0 l r alpha cs) = heat_eval t0 l r alpha cs (fst e [0%nat]) (fst e [1%nat]).
Proof.
  unfold heat_prog, heat_eval. induction (combine cs (frequencies l r (length cs))) as [|[c w] cw IH]; [reflexivity|]. cbn [map psum rsum fold_right pval]. unfold psum, rsum in IH. now rewrite IH.
Qed.
Theorem C71_heat : forall t0 l r alpha cs L x, heat_op [2%nat] alpha = Ok L ->
  run (x, x) (heat_prog t0 l r alpha cs) = Fin (feval (heat_solution t0 l r alpha cs) x []) /\
  op_value L (JaxFn (heat_prog t0 l r alpha cs)) x = Ok (Fin 0).
Proof.
  intros t0 l r alpha cs L x HL. destruct (heat_good t0 l r alpha cs x) as [P1 P2]. split.
  { rewrite (run_reg _ _ (P2 x)). f_equal. exact (heat_den t0 l r alpha cs (x, x)). }
  assert (AL : acts_on [2%nat] L /\ applicable L).
  { destruct (heat_op_2 alpha) as (a & Ha & ->). rewrite Ha in HL. injection HL as <-. cbn. repeat split; auto; try lia; discriminate. }
  destruct AL as [AL BL]. destruct (C71_accepts [2%nat] L (heat_prog t0 l r alpha cs) AL BL) as (q & Hq).
  cbn [op_value]. rewrite Hq. cbn [bind]. rewrite (C71_operator [2%nat] L _ q x AL P1 P2 Hq x). do 2 f_equal.
  rewrite (heat_op_sem alpha L (heat_eval t0 l r alpha cs) (fun t x => alpha * heat_xx t0 l r alpha cs t x) (heat_x t0 l r alpha cs) (heat_xx t0 l r alpha cs) _ x HL);
    [ring|intros y; apply (heat_den t0 l r alpha cs (y, x))|intros; apply heat_dt|intros; apply heat_dx|intros; apply heat_dxx].
Qed.
Print Assumptions C71_heat.
(** Finding: the attached solution of the heat equation is not given to the operators with that
    formula.  Its values are those of the solution, but applying the operator of the problem to it
    gives a function that cannot be evaluated. *)
Theorem C71_heat_refuted : forall t0 l r alpha cs L x, heat_op [2%nat] alpha = Ok L ->
  op_value (OId [2%nat] []) (heat_fobj t0 l r alpha cs) x = Ok (Fin (feval (heat_solution t0 l r alpha cs) x [])) /\
  op_value L (heat_fobj t0 l r alpha cs) x = Err TypeError.
Proof.
  intros t0 l r alpha cs L x HL. split; [reflexivity|]. destruct (heat_op_2 alpha) as (a & Ha & ->). rewrite Ha in HL. injection HL as <-. reflexivity.
Qed.
Print Assumptions C71_heat_refuted.
(** [(2 + d/dx) @ d/dx] applied to [exp], and the multiple of a function without derivative. *)
Example C71_example : let d := ODiff (DPartial (MI [] [1%nat])) in
  let L := OComp [OSum [OScaled 2 (OId [] []); d]; d] in
  acts_on [] L /\ applicable L /\ reads [] (PExp (PVar false [])) /\ (forall x, op_value L (JaxFn (PExp (PVar false []))) x = Ok (Fin (3 * exp (x [])))) /\
  forall x, op_value (OScaled 2 (OId [] [])) (NumpyFn (fun x => exp (x []))) x = Ok (Fin (2 * exp (x []))) /\ op_value L (NumpyFn (fun x => exp (x []))) x = Err TypeError.
Proof.
  cbn zeta. split; [cbn; repeat split|]. split; [cbn; repeat split; discriminate|]. split; [intros _; constructor|]. split; [|intros x; split; reflexivity].
  intros x. cbn. match goal with |- Ok (Fin ?a) = Ok (Fin ?b) => replace a with b; [reflexivity|] end. ring.
Qed.
