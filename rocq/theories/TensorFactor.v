(** Squared exponential and half-integer Matérn covariance functions on the line, as factors
    of products: their derivatives, and what the code returns for them. *)
From Coq Require Import List Arith Lia Reals Lra Bool FunctionalExtensionality.
From Coquelicot Require Import Coquelicot.
From Verif Require Import Base NdArray FunExprModel DiffopModel DiffopSpec DiffopProofs LfoModel LfoSpec KernelModel KernelSpec KernelSound KernelProps MaternKernelProps
  ParamSpec ParamProofs TensorSpec PsdBase PsdMat PsdDiff MaternStrict StatChain MaternChain.
Import ListNotations.
Open Scope R_scope.

(** A factor: the class and the lengthscale. *)
Inductive factor := FGauss (l : R) | FMat (p : nat) (l : R).
Definition fac_len (f : factor) : R := match f with FGauss l | FMat _ l => l end.
Definition fac_cov (f : factor) : cov :=
  match f with
  | FGauss l => CExp (ExpQuad [] (fun _ => l))
  | FMat p l => CMat (Matern [] (fun _ => l) (HalfInt p))
  end.
(** The orders of differentiability in each argument. *)
Definition fac_smooth (f : factor) (T : nat) : Prop := match f with FGauss _ => True | FMat p _ => (T <= p)%nat end.
(** The derivatives of the profile. *)
Definition fac_chain (f : factor) : nat -> R -> R :=
  match f with FGauss l => hq (/ (2 * l ^ 2)) | FMat p l => gm p (sqrt (2 * INR p + 1) / l) end.
Lemma chain_le g T T' : (T' <= T)%nat -> chain g T -> chain g T'.
Proof. intros H [D C]. split; intros n u Hn; [apply D|apply C]; lia. Qed.
Lemma hq_pos l : l <> 0 -> 0 < / (2 * l ^ 2).
Proof. intros H. apply Rinv_0_lt_compat. assert (0 < l ^ 2) by now apply pow2_gt_0. lra. Qed.
Lemma gm_w p l : l <> 0 -> sqrt (2 * INR p + 1) / l <> 0.
Proof.
  intros H. apply Rmult_integral_contrapositive_currified; [|now apply Rinv_neq_0_compat]. apply Rgt_not_eq, sqrt_lt_R0. pose proof (pos_INR p). lra.
Qed.
Lemma fac_chain_ok f T : fac_len f <> 0 -> fac_smooth f T -> chain (fac_chain f) T.
Proof. destruct f as [l|p l]; cbn [fac_len fac_smooth fac_chain]; intros H S; [apply hq_chain|]. apply (chain_le _ p); [exact S|]. apply gm_chain. Qed.
Lemma fac_even f : fac_len f <> 0 -> even_fun (fac_chain f 0).
Proof. destruct f as [l|p l]; cbn [fac_len fac_chain]; intros H; [apply hq_even|apply gm_even]. Qed.
Lemma fac_psd f : fac_len f <> 0 -> psd_kernel (fun x y : R => fac_chain f 0 (x - y) : car RF).
Proof. destruct f as [l|p l]; cbn [fac_len fac_chain]; intros H; [apply hq_psd; left; now apply hq_pos|apply gm_psd]. Qed.
Lemma fac_strict f T : fac_len f <> 0 -> fac_smooth f T -> strict_on (fun v => fst v <= T)%nat (lk (fac_chain f)).
Proof.
  destruct f as [l|p l]; cbn [fac_len fac_smooth fac_chain]; intros H S L O.
  - apply (hq_strict _ (hq_pos l H)). auto.
  - apply (gm_strict _ _ (gm_w p l H)). intros q Hq. specialize (O q Hq). cbn beta in *. lia.
Qed.
(** The covariance function itself. *)
Definition fac_fun (f : factor) : kernel :=
  match f with FGauss l => expquad_fun [] (fun _ => l) | FMat p l => matern_fun [] (fun _ => l) p end.
Lemma fac_fun_chain f : fac_len f <> 0 -> fac_fun f = fun x y => fac_chain f 0 (x [] - y []).
Proof.
  intros H. extensionality x. extensionality y. destruct f as [l|p l]; cbn [fac_len fac_fun fac_chain] in *.
  - rewrite hq_0. unfold expquad_fun, total. cbn [all_indices map fold_right]. f_equal. field. exact H.
  - rewrite gm_0 by now apply gm_w. unfold matern_fun, wdist, total. cbn [all_indices map fold_right]. rewrite Rplus_0_r. f_equal.
    rewrite <- Rsqr_pow2. apply sqrt_Rsqr_abs.
Qed.
Lemma fac_eval f x y : ceval (fac_cov f) x y = fac_fun f x y.
Proof.
  destruct f as [l|p l]; cbn [fac_cov fac_fun].
  - apply (C33_sound 0 (KExp (ExpQuad [] (fun _ => l))) (CExp (ExpQuad [] (fun _ => l)))); [exact Logic.I|reflexivity|discriminate].
  - now rewrite (spec_mat (Matern [] (fun _ => l) (HalfInt p)) p eq_refl).
Qed.

Lemma fac_point f x y : ceval (fac_cov f) x y = ceval (fac_cov f) (fun _ => x []) (fun _ => y []).
Proof. rewrite !fac_eval. now destruct f. Qed.

(** ** Derivatives in both arguments *)
Lemma iter_upto (F : nat -> R -> R) N : (forall n t, (n < N)%nat -> is_derive (F n) t (F (S n) t)) -> forall n, (n <= N)%nat -> Nat.iter n (pd []) (fun a => F 0%nat (a [])) = fun a => F n (a []).
Proof.
  intros H n. induction n as [|n IH]; intros L; [reflexivity|]. change (Nat.iter (S n) (pd []) (fun a => F 0%nat (a []))) with (pd [] (Nat.iter n (pd []) (fun a => F 0%nat (a [])))).
  rewrite IH by lia. apply pd_one. intros t. apply H. lia.
Qed.
Lemma both_upto g T i j x y : chain g T -> (i <= T)%nat -> (j <= T)%nat ->
  in_arg 0 (Nat.iter i (pd [])) (in_arg 1 (Nat.iter j (pd [])) (fun x y => g 0%nat (x [] - y []))) x y = lk g (i, x []) (j, y []).
Proof.
  intros [D _] Hi Hj. unfold in_arg, lk. cbn [fst snd].
  replace (fun x0 : array => Nat.iter j (pd []) (fun x1 : array => g 0%nat (x0 [] - x1 [])) y) with (fun x0 : array => (-1) ^ j * g j (x0 [] - y [])).
  - exact (f_equal (fun h => h x) (iter_upto (fun n t => (-1) ^ j * g (n + j)%nat (t - y [])) T ltac:(intros n t Hn; apply is_derive_scal; evar_last;
      [apply (is_derive_comp (g (n + j)%nat) (fun u => u - y [])); [apply D; lia|auto_derive; [trivial|reflexivity]]|unfold scal; cbn -[lk]; unfold mult; cbn -[lk]; ring]) i Hi)).
  - extensionality x0. symmetry. replace (fun x1 : array => g 0%nat (x0 [] - x1 [])) with (fun x1 : array => (-1) ^ 0 * g 0%nat (x0 [] - x1 [])) by (extensionality x1; apply Rmult_1_l). exact (f_equal (fun h => h y) (iter_upto (fun n t => (-1) ^ n * g n (x0 [] - t)) T ltac:(intros n t Hn; evar_last;
      [apply is_derive_scal; apply (is_derive_comp (g n) (fun u => x0 [] - u)); [apply D; lia|auto_derive; [trivial|reflexivity]]|unfold scal; cbn -[lk]; unfold mult; cbn -[lk]; ring]) j Hj)).
Qed.

(** ** The calls of the code *)
Definition one : array := fun _ => 1.
Definition opn (o : nat) : dop := if (o =? 1)%nat then DDir [] one else DLap false [] one.
Lemma opn_closed o : closed_op [] (opn o). Proof. unfold opn. destruct (o =? 1)%nat; constructor. Qed.
Lemma opn_sem o : o = 1%nat \/ o = 2%nat -> dsem (opn o) = Nat.iter o (pd []).
Proof.
  intros H. extensionality h. extensionality x. unfold opn, one. destruct H as [-> | ->]; cbn [Nat.eqb dsem all_indices map Nat.iter nat_rect]; unfold total; cbn [fold_right]; ring.
Qed.
Definition registered (c : cov) : Prop := pd_registered c = true /\ c_shape c = [].
Lemma order_zero n c a : registered c -> isarg a -> ccall (S n) (pd_op 0) c a = Ok c.
Proof. intros [R E] A. unfold pd_op. cbn [ccall cov_diffop_call]. unfold cov_partial_call. rewrite R. unfold partial_derivative_fallback. rewrite validate_fits by (cbn [mi_shape]; auto). reflexivity. Qed.
Lemma order_pos n c a o : o = 1%nat \/ o = 2%nat -> registered c -> isarg a -> ccall (S n) (pd_op o) c a = ccall n (ODiff (opn o)) c a.
Proof.
  intros H [R E] A. unfold pd_op. cbn [ccall cov_diffop_call]. unfold cov_partial_call. rewrite R. unfold partial_derivative_fallback. rewrite validate_fits by (cbn [mi_shape]; auto).
  destruct H as [-> | ->]; reflexivity.
Qed.
Lemma fac_registered f : registered (fac_cov f). Proof. destruct f; split; reflexivity. Qed.
(** The operator of order [j] in the second argument. *)
Lemma fac_one n f j c : fac_len f <> 0 -> fac_smooth f j -> j = 1%nat \/ j = 2%nat -> ccall (S n) (ODiff (opn j)) (fac_cov f) 1 = Ok c -> registered c.
Proof.
  intros H S J. destruct f as [l|p l]; cbn [fac_cov fac_smooth] in *.
  - destruct J as [-> | ->]; cbn; intros E; injection E as <-; split; reflexivity.
  - intros E. destruct (uni1_call n (Matern [] (fun _ => l) (HalfInt p)) p (opn j) 1 eq_refl eq_refl (opn_closed j) (or_intror eq_refl)) as (c' & E' & U); [left; lia|].
    rewrite E in E'. injection E' as <-. unfold opn in U. destruct J as [-> | ->]; cbn [Nat.eqb uni1] in U; [destruct U as (q & _ & ->)|subst c]; split; reflexivity.
Qed.
(** Derivatives of orders at most two in each argument, first in the second argument. *)
Theorem fac_values n f T i j : fac_len f <> 0 -> fac_smooth f T -> (i <= T)%nat -> (j <= T)%nat -> (i <= 2)%nat -> (j <= 2)%nat ->
  exists c1 c', ccall (S (S n)) (pd_op j) (fac_cov f) 1 = Ok c1 /\ ccall (S (S n)) (pd_op i) c1 0 = Ok c' /\
    forall x y, ceval c' x y = lk (fac_chain f) (i, x []) (j, y []).
Proof.
  intros H S Hi Hj Li Lj. pose proof (fac_chain_ok f T H S) as C.
  assert (O : forall o, (o <= 2)%nat -> o = 0%nat \/ (o = 1%nat \/ o = 2%nat)) by (intros; lia).
  assert (A0 : isarg 0) by now left. assert (A1 : isarg 1) by now right.
  assert (V : forall x y, in_arg 0 (Nat.iter i (pd [])) (in_arg 1 (Nat.iter j (pd [])) (fac_fun f)) x y = lk (fac_chain f) (i, x []) (j, y [])).
  { intros x y. rewrite (fac_fun_chain f H). exact (both_upto _ T i j x y C Hi Hj). }
  destruct (O j Lj) as [Ej|Pj].
  - subst j. exists (fac_cov f). rewrite (order_zero _ _ _ (fac_registered f) A1). destruct (O i Li) as [Ei|Pi].
    + subst i. exists (fac_cov f). rewrite (order_zero _ _ _ (fac_registered f) A0). repeat split; auto. intros x y. rewrite <- V, (fac_eval f x y). reflexivity.
    + rewrite (order_pos _ _ _ _ Pi (fac_registered f) A0). destruct f as [l|p l]; cbn [fac_cov fac_smooth fac_fun] in *.
      * destruct (C33_one_operator n (ExpQuad [] (fun _ => l)) (opn i) 0 (opn_closed i) A0) as (c & E & _ & Vc). exists c. split; [reflexivity|]. split; [exact E|].
        intros x y. rewrite Vc, <- V, (opn_sem i Pi). reflexivity.
      * destruct (C35_one_operator n (Matern [] (fun _ => l) (HalfInt p)) p (opn i) 0 eq_refl eq_refl ltac:(lia) (opn_closed i) A0) as (c & E & _ & _ & Vc). exists c. split; [reflexivity|]. split; [exact E|].
        intros x y. rewrite Vc, <- V, (opn_sem i Pi). reflexivity.
  - rewrite (order_pos _ _ _ _ Pj (fac_registered f) A1). assert (Sj : fac_smooth f j) by (destruct f; cbn in *; [trivial|lia]). destruct (O i Li) as [Ei|Pi].
    + subst i. destruct f as [l|p l].
      * destruct (C33_one_operator n (ExpQuad [] (fun _ => l)) (opn j) 1 (opn_closed j) A1) as (c & E & _ & Vc). exists c, c. split; [exact E|].
        split; [apply (order_zero _ _ _ (fac_one n (FGauss l) j c H Sj Pj E) A0)|]. intros x y. rewrite Vc, <- V, (opn_sem j Pj). reflexivity.
      * destruct (C35_one_operator n (Matern [] (fun _ => l) (HalfInt p)) p (opn j) 1 eq_refl eq_refl ltac:(cbn in S; lia) (opn_closed j) A1) as (c & E & _ & _ & Vc). exists c, c. split; [exact E|].
        split; [apply (order_zero _ _ _ (fac_one n (FMat p l) j c H Sj Pj E) A0)|]. intros x y. rewrite Vc, <- V, (opn_sem j Pj). reflexivity.
    + destruct f as [l|p l].
      * destruct (C33_both_arguments n (ExpQuad [] (fun _ => l)) (opn j) 1 (opn i) (opn_closed j) (opn_closed i) A1 ltac:(discriminate)) as (c & E & _ & Vc).
        destruct (ccall (Datatypes.S n) (ODiff (opn j)) (CExp (ExpQuad [] (fun _ => l))) 1) as [c1|] eqn:E1; [|discriminate]. exists c1, c. cbn [bind Nat.sub] in E. split; [exact E1|].
        rewrite (order_pos _ _ _ _ Pi (fac_one n (FGauss l) j c1 H Sj Pj E1) A0). split; [exact E|]. intros x y. rewrite Vc, <- V, (opn_sem j Pj). cbn [Nat.sub]. rewrite (opn_sem i Pi). reflexivity.
      * destruct (C35_both_arguments n (Matern [] (fun _ => l) (HalfInt p)) p (opn j) (opn i) 1 eq_refl eq_refl (opn_closed j) (opn_closed i) A1) as (c & E & _ & _ & Vc).
        { cbn in S. destruct (le_lt_dec 2 p); [now left|right]. assert (i = 1%nat /\ j = 1%nat /\ p = 1%nat) as (-> & -> & ->) by lia. auto. }
        destruct (ccall (Datatypes.S n) (ODiff (opn j)) (CMat (Matern [] (fun _ => l) (HalfInt p))) 1) as [c1|] eqn:E1; [|discriminate]. exists c1, c. cbn [bind Nat.sub] in E. split; [exact E1|].
        rewrite (order_pos _ _ _ _ Pi (fac_one n (FMat p l) j c1 H Sj Pj E1) A0). split; [exact E|]. intros x y. rewrite Vc, <- V, (opn_sem j Pj). cbn [Nat.sub]. rewrite (opn_sem i Pi). reflexivity.
Qed.
