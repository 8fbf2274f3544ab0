(** Soundness of applying operators to the arguments of ExpQuad covariance functions. *)
From Coq Require Import List Reals Lra Lia Bool Arith ZArith FunctionalExtensionality.
From Coquelicot Require Import Coquelicot.
From Verif Require Import Base NdArray FunExprModel DiffopModel DiffopSpec DiffopProofs
  LfoModel LfoSpec LfoSmooth LfoProofs LfoSound KernelModel KernelSpec KernelCalc ExpQuadProofs KernelSmooth.
Import ListNotations.
Open Scope R_scope.

Definition isarg (a : nat) : Prop := a = 0%nat \/ a = 1%nat.

(** ** Closure of the class under operators *)
Lemma class_iter sh a n i k : kclass sh k -> valid_index sh i -> kclass sh (in_arg a (Nat.iter n (pd i)) k).
Proof.
  intros K V. induction n as [|n IH].
  - destruct a; exact K.
  - replace (in_arg a (Nat.iter (S n) (pd i)) k) with (in_arg a (pd i) (in_arg a (Nat.iter n (pd i)) k)) by (destruct a; reflexivity).
    now apply class_pd.
Qed.
Lemma class_fold sh a (m : index -> nat) l : (forall i, In i l -> valid_index sh i) -> forall k, kclass sh k ->
  kclass sh (in_arg a (fun f => fold_left (fun h i => Nat.iter (m i) (pd i) h) l f) k).
Proof.
  induction l as [|i l IH]; intros V k K; [destruct a; exact K|].
  replace (in_arg a (fun f => fold_left (fun h i => Nat.iter (m i) (pd i) h) (i :: l) f) k)
    with (in_arg a (fun f => fold_left (fun h i => Nat.iter (m i) (pd i) h) l f) (in_arg a (Nat.iter (m i) (pd i)) k)) by (destruct a; reflexivity).
  apply IH; [intros; apply V; now right|]. apply class_iter; [exact K|apply V; now left].
Qed.
Lemma class_dsem sh a d k : kclass sh k -> d_dom d = sh -> kclass sh (in_arg a (dsem d) k).
Proof.
  intros K <-. destruct d as [al|al|b s w|s v]; cbn [d_dom dsem] in *.
  1, 2: apply (class_fold (mi_shape al) a (mi_entry al)); [intros i; apply all_indices_spec|exact K].
  - replace (in_arg a (dsem (DLap b s w)) k)
      with (fun x0 x1 => total (map (fun i => w i * in_arg a (pd i) (in_arg a (pd i) k) x0 x1) (all_indices s))) by (destruct a; reflexivity).
    apply (class_total s (fun i x0 x1 => w i * in_arg a (pd i) (in_arg a (pd i) k) x0 x1)). intros i I. apply all_indices_spec in I. apply class_scal. now apply class_pd; [apply class_pd|].
  - replace (in_arg a (dsem (DDir s v)) k)
      with (fun x0 x1 => total (map (fun i => v i * in_arg a (pd i) k x0 x1) (all_indices s))) by (destruct a; reflexivity).
    apply (class_total s (fun i x0 x1 => v i * in_arg a (pd i) k x0 x1)). intros i I. apply all_indices_spec in I. apply class_scal. now apply class_pd.
Qed.
Lemma class_exp e : kclass (eq_shape e) (ceval (CExp e)).
Proof.
  exists [Term (PC 1) (bv e)]. split; [repeat constructor|]. extensionality x0. extensionality x1. rewrite ev_exp.
  unfold tsev, tev, Ex, expo, Qd, vdiff, total. cbn. rewrite Rplus_0_r, Rmult_1_l. reflexivity.
Qed.

(** ** The covariance functions built from ExpQuad *)
Inductive fam (sh : shape) : cov -> Prop :=
| fam_exp e : eq_shape e = sh -> fam sh (CExp e)
| fam_dir e v r : eq_shape e = sh -> fam sh (CExpDir e v r)
| fam_dirdir e v0 v1 : eq_shape e = sh -> fam sh (CExpDirDir e v0 v1)
| fam_lap e w r : eq_shape e = sh -> fam sh (CExpLap e w r)
| fam_laplap e w0 w1 : eq_shape e = sh -> fam sh (CExpLapLap e w0 w1)
| fam_dirlap e v w r : eq_shape e = sh -> fam sh (CExpDirLap e v w r)
| fam_scaled s c : fam sh c -> fam sh (CScaled s c)
| fam_sum c cs : (forall c', In c' (c :: cs) -> fam sh c') -> fam sh (CSum (c :: cs))
| fam_jax f : kclass sh f -> fam sh (CJax sh f).
Lemma fam_shape sh c : fam sh c -> c_shape c = sh.
Proof. induction 1; cbn; auto. now apply H0; left. Qed.
Lemma fam_class sh c : fam sh c -> kclass sh (ceval c).
Proof.
  induction 1 as [e E|e v r E|e v0 v1 E|e w r E|e w0 w1 E|e v w r E|s c H IH|c cs H IH|f K]; try subst sh.
  - apply class_exp.
  - replace (ceval (CExpDir e v r)) with (in_arg (if r then 0 else 1)%nat (dsem (DDir (eq_shape e) v)) (ceval (CExp e))).
    + apply class_dsem; [apply class_exp|reflexivity].
    + destruct r; rewrite dir_exp by auto; reflexivity.
  - change (CExpDirDir e v0 v1) with (if is0 0 then CExpDirDir e v0 v1 else CExpDirDir e v1 v0). 
    replace (ceval (if is0 0 then CExpDirDir e v0 v1 else CExpDirDir e v1 v0)) with (in_arg 0 (dsem (DDir (eq_shape e) v0)) (ceval (CExpDir e v1 (is1 0)))) by (rewrite dir_dir by auto; reflexivity).
    apply class_dsem; [|reflexivity]. change (is1 0) with (is0 1). rewrite <- dir_exp by auto. apply class_dsem; [apply class_exp|reflexivity].
  - replace (ceval (CExpLap e w r)) with (in_arg (if r then 0 else 1)%nat (dsem (DLap false (eq_shape e) w)) (ceval (CExp e))).
    + apply class_dsem; [apply class_exp|reflexivity].
    + destruct r; rewrite lap_exp by auto; reflexivity.
  - replace (ceval (CExpLapLap e w0 w1)) with (in_arg 0 (dsem (DLap false (eq_shape e) w0)) (ceval (CExpLap e w1 (is1 0)))) by (rewrite lap_lap by auto; reflexivity).
    apply class_dsem; [|reflexivity]. change (is1 0) with (is0 1). rewrite <- (lap_exp e 1 false). apply class_dsem; [apply class_exp|reflexivity].
  - replace (ceval (CExpDirLap e v w r)) with (in_arg (if r then 0 else 1)%nat (dsem (DLap false (eq_shape e) w)) (ceval (CExpDir e v (is1 (if r then 0 else 1))))).
    + apply class_dsem; [|reflexivity]. replace (is1 (if r then 0 else 1)) with (is0 (if r then 1 else 0)) by (destruct r; reflexivity).
      rewrite <- dir_exp by (destruct r; auto). apply class_dsem; [apply class_exp|reflexivity].
    + destruct r; rewrite lap_dir by auto; reflexivity.
  - apply (class_scal sh s (ceval c) IH).
  - apply (class_total sh ceval (c :: cs)). exact IH.
  - exact K.
Qed.

(** ** Linearity *)
Lemma slice_smooth sh k a x0 x1 : kclass sh k -> smooth sh (fun x => match a with O => k x x1 | _ => k x0 x end).
Proof. intros K. destruct (class_smooth sh k K). destruct a; auto. Qed.
Lemma dsem_zero d : dsem d (fun _ => 0) = fun _ => 0.
Proof.
  transitivity (dsem d (fun y => (-1) * (fun _ : array => 0) y + (fun _ : array => 0) y)).
  - f_equal. extensionality y. ring.
  - rewrite (dsem_lin d (-1)) by apply smooth_const. extensionality y. ring.
Qed.
Lemma in_scal sh d a s k : kclass sh k -> d_dom d = sh -> in_arg a (dsem d) (fun x0 x1 => s * k x0 x1) = fun x0 x1 => s * in_arg a (dsem d) k x0 x1.
Proof.
  intros K <-. destruct (class_smooth _ _ K) as [S0 S1]. extensionality x0. extensionality x1. unfold in_arg.
  assert (G : forall g, smooth (d_dom d) g -> dsem d (fun y => s * g y) = fun y => s * dsem d g y).
  { intros g Sg. transitivity (dsem d (fun y => s * g y + (fun _ : array => 0) y)).
    - f_equal. extensionality y. ring.
    - rewrite dsem_lin, dsem_zero by (assumption || apply smooth_const). extensionality y. ring. }
  destruct a; [now rewrite (G (fun x => k x x1))|now rewrite (G (fun x => k x0 x))].
Qed.
Lemma in_total {A} sh d a (h : A -> kernel) l : (forall y, In y l -> kclass sh (h y)) -> d_dom d = sh ->
  in_arg a (dsem d) (fun x0 x1 => total (map (fun y => h y x0 x1) l)) = fun x0 x1 => total (map (fun y => in_arg a (dsem d) (h y) x0 x1) l).
Proof.
  intros K <-. extensionality x0. extensionality x1. 
  assert (G : forall g : A -> array -> R, (forall y, In y l -> smooth (d_dom d) (g y)) -> dsem d (fun x => total (map (fun y => g y x) l)) = fun x => total (map (fun y => dsem d (g y) x) l)).
  { clear K. intros g. induction l as [|y l' IH]; intros S; [apply dsem_zero|].
    transitivity (dsem d (fun x => 1 * g y x + total (map (fun y => g y x) l'))); [f_equal; extensionality x; unfold total; cbn [map fold_right]; ring|].
    rewrite dsem_lin.
    - rewrite IH by (intros; apply S; now right). extensionality x. unfold total. cbn [map fold_right]. ring.
    - apply S. now left.
    - apply (smooth_total (d_dom d) g). intros; apply S; now right. }
  unfold in_arg. destruct a.
  - rewrite (G (fun y x => h y x x1)); [reflexivity|]. intros y Hy. destruct (class_smooth _ _ (K y Hy)) as [S _]. apply S.
  - rewrite (G (fun y x => h y x0 x)); [reflexivity|]. intros y Hy. destruct (class_smooth _ _ (K y Hy)) as [_ S]. apply S.
Qed.

(** ** The fallbacks *)
Lemma validate_ok dom cod c a u : validate dom cod c a = Ok u -> isarg a /\ c_shape c = dom /\ cod = [].
Proof.
  unfold validate. destruct a as [|[|a]]; cbn [Nat.eqb orb negb]; try discriminate;
    destruct (shape_eqb_spec (c_shape c) dom) as [E1|]; cbn; try discriminate;
    destruct (shape_eqb_spec [] cod) as [E2|]; cbn; try discriminate; unfold isarg; auto.
Qed.
Lemma jax_op_value d f T : dwf d -> smooth (d_dom d) f -> (length (d_dom d) <=? 1)%nat = true -> jax_op d = Ok T -> T f = dsem d f.
Proof.
  intros W S Hl H. apply jax_fn; [exact W|exact S|]. destruct d as [al|al|b s w|s v]; cbn [jax_op jax_fallback d_dom] in *.
  - destruct (factorize_first_order al); [|discriminate]. cbn [bind] in *. now injection H as <-.
  - discriminate.
  - rewrite Hl. now injection H as <-.
  - now injection H as <-.
Qed.
Lemma to_sum_sem d L : dwf d -> to_sum_no_jax d = Ok L -> okop L /\ forall f x, ksem L f x = dsem d f x.
Proof.
  intros W H. unfold to_sum_no_jax in H. apply bind_ok in H as (c & Hc & H). destruct (d_coeffs_ok d c W Hc) as (inn & E & Hinn & V).
  rewrite E in H. apply bind_ok in H as (Ls & HLs & H). cbn [mapM] in HLs. apply bind_ok in HLs as (I & HI & HLs).
  cbn [bind] in HLs. injection HLs as <-. apply mk_sum_ok in HI as (_ & _ & _ & -> & _). apply mk_sum_ok in H as (_ & _ & _ & -> & _). split.
  - cbn [okop fold_right]. split; [|exact Logic.I]. clear - Hinn. induction inn as [|[a y] inn IH]; [exact Logic.I|]. cbn [map fold_right o_scale okop].
    split; [|apply IH; intros; eapply Hinn; right; eassumption]. eapply Hinn. now left.
  - intros f x. change (total (map (fun M => ksem M f x) (map (fun '(a, y) => o_scale y (ODiff (DPartialNoJax a))) inn)) + 0 = dsem d f x).
    rewrite Rplus_0_r, <- V, map_map. apply total_ext. intros [a y] _. reflexivity.
Qed.
Lemma pderiv0 a f : mi_wf a -> mi_order a = 0%nat -> pderiv a f = f.
Proof.
  intros W O. unfold pderiv. assert (Z : forall i, In i (all_indices (mi_shape a)) -> mi_entry a i = 0%nat).
  { intros i Hi. unfold mi_order in O. rewrite (mi_arrE a W) in O.
    assert (G : forall l, fold_right Nat.add 0%nat (map (mi_entry a) l) = 0%nat -> In i l -> mi_entry a i = 0%nat).
    { induction l as [|j l IH]; [now intros|]. cbn. intros S [->|I]; [lia|]. apply IH; [lia|exact I]. }
    apply (G _ O Hi). }
  revert Z. generalize (all_indices (mi_shape a)). intros l Z. revert f. induction l as [|i l IH]; intros f; [reflexivity|].
  cbn [fold_left]. rewrite (Z i) by now left. cbn. apply IH. intros; apply Z; now right.
Qed.
Lemma shape0_order a : mi_wf a -> mi_shape a = [] -> mi_entry a [] = mi_order a.
Proof. intros W E. unfold mi_order. rewrite (mi_arrE a W), E. cbn. lia. Qed.

(** A result is the object [NotImplemented], or the kernel with the operator applied. *)
Definition applied (sh : shape) (a : nat) (T : (array -> R) -> array -> R) (k : kernel) (c' : cov) : Prop :=
  c' = CNotImpl \/ (fam sh c' /\ ceval c' = in_arg a T k).

Lemma notimpl_call n L a c' : ccall n L CNotImpl a = Ok c' -> c' = CNotImpl.
Proof.
  revert L a c'. induction n as [|n IH]; intros L a c' H; [discriminate|]. destruct L as [dom cod|d|s M|Ls|Ls]; cbn [ccall] in H.
  - unfold cov_id_call in H. apply bind_ok in H as (u & _ & [= <-]). reflexivity.
  - destruct d; cbn in H; try discriminate; unfold cov_partial_call in H; cbn in H; destruct (mi_order _ =? 0)%nat; try discriminate; now injection H.
  - apply bind_ok in H as (r & Hr & H). apply IH in Hr as ->. discriminate.
  - destruct Ls as [|L Ls]; [discriminate|]. cbn [cov_sum_call] in H. destruct (ccall n L CNotImpl a) as [r|x] eqn:E.
    + apply IH in E as ->. destruct Ls as [|M Ls]; [now injection H|]. exfalso. cbn [fold_left bind] in H.
      assert (X : exists x, bind (ccall n M CNotImpl a) (fun b => cov_add CNotImpl b) = Err x) by (destruct (ccall n M CNotImpl a); cbn; eauto).
      destruct X as [x X]. rewrite X in H. clear - H. induction Ls as [|L Ls IHL]; [discriminate|]. now apply IHL.
    + exfalso. clear - H. induction Ls as [|M Ls IHL]; [discriminate|]. now apply IHL.
  - unfold cov_comp_call in H. revert H. generalize (rev Ls). intros l. induction l as [|M l IHl]; intros H; [now injection H|].
    cbn [fold_left bind] in H. destruct (ccall n M CNotImpl a) as [r|x] eqn:E.
    + apply IH in E as ->. now apply IHl.
    + exfalso. clear - H. induction l as [|M' l IHL]; [discriminate|]. now apply IHL.
Qed.

Section Step.
Variable n : nat.
Hypothesis IH : forall sh L c a c', fam sh c -> isarg a -> okop L -> ccall n L c a = Ok c' -> applied sh a (ksem L) (ceval c) c'.

Lemma scale_app sh a T k s r c' : (forall k', in_arg a T k' = in_arg a T k') -> applied sh a T k r -> cov_scale s r = Ok c' ->
  fam sh c' /\ ceval c' = fun x0 x1 => s * in_arg a T k x0 x1.
Proof.
  intros _ [->|[F E]] H; [discriminate|]. assert (G : fam sh (CScaled s r) /\ ceval (CScaled s r) = fun x0 x1 => s * in_arg a T k x0 x1).
  { split; [now constructor|]. rewrite <- E. reflexivity. }
  destruct F; cbn in H; injection H as <-; try exact G. destruct G as [G1 G2]. inversion G1; subst. split; [now constructor|].
  rewrite <- G2. extensionality x0. extensionality x1. cbn. ring.
Qed.
Lemma covsum_app sh rs c' : (forall r, In r rs -> r = CNotImpl \/ fam sh r) -> mk_covsum rs = Ok c' ->
  fam sh c' /\ (forall r, In r rs -> fam sh r) /\ ceval c' = fun x0 x1 => total (map (fun r => ceval r x0 x1) rs).
Proof.
  intros F H. unfold mk_covsum in H. destruct (forallb is_cov rs) eqn:E; [|discriminate]. cbn [negb] in H.
  assert (F' : forall r, In r rs -> fam sh r).
  { intros r Hr. destruct (F r Hr) as [->|]; [|assumption]. rewrite forallb_forall in E. specialize (E _ Hr). discriminate. }
  destruct rs as [|r rs]; [discriminate|]. match type of H with (if ?b then _ else _) = _ => destruct b end; [|discriminate]. injection H as <-. split; [now constructor|]. split; [exact F'|reflexivity].
Qed.
Lemma base_app sh d c a c' : fam sh c -> isarg a -> okop (ODiff d) -> cov_base_call (ccall n) (ODiff d) c a = Ok c' ->
  applied sh a (dsem d) (ceval c) c'.
Proof.
  intros F Ha Hd H. pose proof (fam_shape sh c F) as Sh.
  destruct F as [e E|e v r E|e v0 v1 E|e w r E|e w0 w1 E|e v w r E|s c F|c cs F|f K]; cbn [cov_base_call] in H; try discriminate.
  - apply bind_ok in H as (u & Hv & H). apply validate_ok in Hv as (_ & Hs & _). cbn in Hs.
    apply bind_ok in H as (r & Hr & H). apply (IH sh) in Hr; [|assumption|assumption|assumption]. right.
    destruct (scale_app sh a (dsem d) (ceval c) s r c' ltac:(reflexivity) Hr H) as [F' E']. split; [exact F'|]. rewrite E'.
    symmetry. apply (in_scal sh); [now apply fam_class|]. rewrite <- (fam_shape sh c F). now symmetry.
  - apply bind_ok in H as (u & Hv & H). apply validate_ok in Hv as (_ & Hs & _). cbn in Hs.
    apply bind_ok in H as (rs & Hr & H). apply mapM_ok in Hr. right.
    assert (A : Forall2 (fun x r => applied sh a (dsem d) (ceval x) r) (c :: cs) rs).
    { clear - IH Hr F Ha Hd. revert F Hr. generalize (c :: cs). intros l F Hr. induction Hr as [|x r l rs Hx Hr IHr]; constructor.
      - apply (IH sh) in Hx; auto. apply F. now left.
      - apply IHr. intros; apply F; now right. }
    destruct (covsum_app sh rs c') as (F' & Fr & E'); [|exact H|].
    { clear - A. intros r Hr. induction A as [|x r' l rs Ax A IHA]; [destruct Hr|]. destruct Hr as [<-|Hr]; [|auto]. destruct Ax as [->|[? _]]; auto. }
    split; [exact F'|]. rewrite E'. change (ceval (CSum (c :: cs))) with (fun x0 x1 => total (map (fun y => ceval y x0 x1) (c :: cs))). rewrite (in_total sh d a ceval (c :: cs)).
    + extensionality x0. extensionality x1. clear - A Fr. induction A as [|x r l rs Ax A IHA]; [reflexivity|]. cbn [map total fold_right]. f_equal.
      * destruct Ax as [->|[_ ->]]; [|reflexivity]. exfalso. assert (X : fam sh CNotImpl) by (apply Fr; now left). inversion X.
      * apply IHA. intros; apply Fr; now right.
    + intros y Hy. apply fam_class. now apply F.
    + rewrite <- (fam_shape sh c (F c (or_introl eq_refl))). now symmetry.
Qed.
Lemma jax_app sh d c a c' : fam sh c -> isarg a -> dwf d -> d_dom d = sh -> cov_jax d c a = Ok c' -> applied sh a (dsem d) (ceval c) c'.
Proof.
  intros F Ha W Hs H. unfold cov_jax in H. apply bind_ok in H as (T & HT & H). destruct (length (d_dom d) <=? 1)%nat eqn:El; [|discriminate].
  injection H as <-. pose proof (fam_class sh c F) as K. destruct (class_smooth sh _ K) as [S0 S1]. subst sh.
  assert (E : (fun x0 x1 => if (a =? 0)%nat then T (fun x => ceval c x x1) x0 else T (fun x => ceval c x0 x) x1) = in_arg a (dsem d) (ceval c)).
  { extensionality x0. extensionality x1. destruct Ha as [->| ->]; cbn [Nat.eqb in_arg].
    - now rewrite (jax_op_value d _ T W (S0 x1) El HT).
    - now rewrite (jax_op_value d _ T W (S1 x0) El HT). }
  right. rewrite E. split; [|reflexivity]. constructor. now apply class_dsem.
Qed.
Lemma lindiffop_app sh d c a c' : fam sh c -> isarg a -> okop (ODiff d) -> dwf d -> cov_lindiffop_call (ccall n) d c a = Ok c' ->
  applied sh a (dsem d) (ceval c) c'.
Proof.
  intros F Ha Hd W H. unfold cov_lindiffop_call in H. destruct (negb (is_cov c)); [discriminate|]. apply bind_ok in H as (u & Hv & H).
  apply validate_ok in Hv as (_ & Hs & _). rewrite (fam_shape sh c F) in Hs. apply or_else_ok in H as [H|H].
  - unfold cov_call_no_jax in H. apply or_else_ok in H as [H|H]; [now apply base_app|]. destruct (is_partial d); [discriminate|].
    apply bind_ok in H as (L & HL & H). destruct (to_sum_sem d L W HL) as [OL V]. apply (IH sh) in H; auto.
    replace (dsem d) with (ksem L); [exact H|]. extensionality f. extensionality x. apply V.
  - apply jax_app; auto.
Qed.
Lemma pd_registered_shape c a v c' d : pd_registered c = true -> (exists sh, fam sh c) -> (d = DDir [] v \/ d = DLap false [] v) ->
  ccall n (ODiff d) c a = Ok c' -> c_shape c = [].
Proof.
  intros P [sh F] Hd H. destruct n as [|m]; [discriminate|]. cbn [ccall] in H.
  destruct Hd as [-> | ->]; cbn [cov_diffop_call] in H; destruct F; try discriminate; cbn [cov_dir_call cov_lap_call] in H;
    apply bind_ok in H as (u & Hv & _); now apply validate_ok in Hv as (_ & Hs & _).
Qed.
Lemma partial_app sh d al c a c' : d = DPartial al \/ d = DPartialNoJax al -> fam sh c -> isarg a -> mi_wf al ->
  cov_partial_call (ccall n) d al c a = Ok c' -> applied sh a (dsem d) (ceval c) c'.
Proof.
  intros Hd F Ha W H. replace (dsem d) with (pderiv al) by (destruct Hd as [-> | ->]; reflexivity).
  assert (Z : mi_order al = 0%nat -> applied sh a (pderiv al) (ceval c) c).
  { intros O. right. split; [exact F|]. replace (pderiv al) with (fun f : array -> R => f); [now destruct a|]. extensionality f. now rewrite pderiv0. }
  unfold cov_partial_call in H. destruct (pd_registered c) eqn:P.
  - unfold partial_derivative_fallback in H. apply bind_ok in H as (u & Hv & H). apply validate_ok in Hv as (_ & Hs & _).
    destruct (mi_order al =? 0)%nat eqn:O; [injection H as <-; apply Z; now apply Nat.eqb_eq|].
    destruct ((size (mi_shape al) =? 1)%nat && (mi_order al =? 1)%nat) eqn:O1.
    { apply andb_true_iff in O1 as [_ O1]. apply Nat.eqb_eq in O1.
      pose proof (pd_registered_shape c a (fun _ => 1) c' _ P (ex_intro _ sh F) (or_introl eq_refl) H) as E0.
      assert (Es : mi_shape al = []) by congruence.
      apply (IH sh) in H; [|assumption|assumption|exact Logic.I]. replace (pderiv al) with (ksem (ODiff (DDir [] (fun _ => 1)))); [exact H|].
      extensionality f. extensionality x. cbn [ksem dsem]. unfold pderiv. rewrite Es. cbn [all_indices fold_left map].
      unfold all_indices. cbn. rewrite (shape0_order al W Es), O1. unfold total. cbn. ring. }
    destruct ((size (mi_shape al) =? 1)%nat && (mi_order al =? 2)%nat) eqn:O2.
    { apply andb_true_iff in O2 as [_ O2]. apply Nat.eqb_eq in O2.
      pose proof (pd_registered_shape c a (fun _ => 1) c' _ P (ex_intro _ sh F) (or_intror eq_refl) H) as E0.
      assert (Es : mi_shape al = []) by congruence.
      apply (IH sh) in H; [|assumption|assumption|exact Logic.I]. replace (pderiv al) with (ksem (ODiff (DLap false [] (fun _ => 1)))); [exact H|].
      extensionality f. extensionality x. cbn [ksem dsem]. unfold pderiv. rewrite Es.
      unfold all_indices. cbn. rewrite (shape0_order al W Es), O2. unfold total. cbn. ring. }
    left. now injection H.
  - destruct (mi_order al =? 0)%nat eqn:O; [injection H as <-; apply Z; now apply Nat.eqb_eq|].
    apply Nat.eqb_neq in O. replace (pderiv al) with (dsem d) by (destruct Hd as [-> | ->]; reflexivity).
    apply lindiffop_app; auto; destruct Hd as [-> | ->]; cbn; auto.
Qed.
Ltac valid H := let u := fresh "u" in let Hv := fresh "Hv" in apply bind_ok in H as (u & Hv & H); apply validate_ok in Hv as (_ & Hv & _); cbn [c_shape] in Hv.
Lemma dir_app sh s v c a c' : fam sh c -> isarg a -> cov_dir_call (ccall n) s v c a = Ok c' -> applied sh a (dsem (DDir s v)) (ceval c) c'.
Proof.
  intros F Ha H. pose proof (lindiffop_app sh (DDir s v) c a c' F Ha Logic.I Logic.I) as Sup. unfold cov_dir_call in H.
  destruct F as [e E|e d r E|e v0 v1 E|e w r E|e w0 w1 E|e d w r E|s' c F|c cs F|f K]; try (now apply Sup); valid H; subst s.
  - injection H as <-. right. split; [now constructor|]. symmetry. now apply dir_exp.
  - destruct Ha as [-> | ->]; destruct r; cbn in H; try (now apply Sup); injection H as <-; right; (split; [now constructor|]).
    + symmetry. exact (dir_dir e 0 (or_introl eq_refl) v d).
    + symmetry. exact (dir_dir e 1 (or_intror eq_refl) v d).
  - destruct Ha as [-> | ->]; destruct r; cbn in H; try (now apply Sup); injection H as <-; right; (split; [now constructor|]).
    + symmetry. exact (dir_lap e 0 (or_introl eq_refl) v w).
    + symmetry. exact (dir_lap e 1 (or_intror eq_refl) v w).
Qed.
Lemma lap_app sh b s v c a c' : fam sh c -> isarg a -> cov_lap_call (ccall n) b s v c a = Ok c' -> applied sh a (dsem (DLap b s v)) (ceval c) c'.
Proof.
  intros F Ha H. pose proof (lindiffop_app sh (DLap b s v) c a c' F Ha Logic.I Logic.I) as Sup. unfold cov_lap_call in H.
  destruct F as [e E|e d r E|e v0 v1 E|e w r E|e w0 w1 E|e d w r E|s' c F|c cs F|f K]; try (now apply Sup); valid H; subst s.
  - injection H as <-. right. split; [now constructor|]. symmetry. now apply lap_exp.
  - destruct Ha as [-> | ->]; destruct r; cbn in H; try (now apply Sup); injection H as <-; right; (split; [now constructor|]).
    + symmetry. exact (lap_dir e 0 (or_introl eq_refl) b v d).
    + symmetry. exact (lap_dir e 1 (or_intror eq_refl) b v d).
  - destruct Ha as [-> | ->]; destruct r; cbn in H; try (now apply Sup); try discriminate; injection H as <-; right; (split; [now constructor|]).
    symmetry. exact (lap_lap e 0 b v w).
Qed.
Lemma sum_app sh c a Ls : fam sh c -> isarg a -> (forall M, In M Ls -> okop M) -> forall r (V : kernel) c', 
  r = CNotImpl \/ (fam sh r /\ ceval r = V) ->
  fold_left (fun acc M => bind acc (fun a0 => bind (ccall n M c a) (fun b => cov_add a0 b))) Ls (Ok r) = Ok c' ->
  c' = CNotImpl \/ (fam sh c' /\ ceval c' = fun x0 x1 => V x0 x1 + total (map (fun M => in_arg a (ksem M) (ceval c) x0 x1) Ls)).
Proof.
  intros F Ha. induction Ls as [|M Ls IHL]; intros O r V c' Hr H.
  - injection H as <-. destruct Hr as [->|[Fr <-]]; [now left|right]. split; [exact Fr|]. extensionality x0. extensionality x1. cbn. ring.
  - cbn [fold_left bind] in H. destruct (bind (ccall n M c a) (fun b => cov_add r b)) as [r'|x] eqn:E.
    + apply bind_ok in E as (b & Hb & Hc). apply (IH sh) in Hb; auto; [|apply O; now left].
      destruct (covsum_app sh [r; b] r') as (F' & Fr & E'); [|exact Hc|].
      { intros y [<-|[<-|[]]]; [destruct Hr as [->|[? _]]; auto|destruct Hb as [->|[? _]]; auto]. }
      assert (Fr1 : fam sh r) by (apply Fr; now left). assert (Fb : fam sh b) by (apply Fr; right; now left).
      destruct Hr as [->|[_ Vr]]; [inversion Fr1|]. destruct Hb as [->|[_ Vb]]; [inversion Fb|].
      destruct (IHL ltac:(intros; apply O; now right) r' (fun x0 x1 => V x0 x1 + in_arg a (ksem M) (ceval c) x0 x1) c') as [->|[Fc Ec]]; [|exact H|now left|].
      * right. split; [exact F'|]. rewrite E'. extensionality x0. extensionality x1. cbn [map total fold_right]. rewrite Vr, Vb. ring.
      * right. split; [exact Fc|]. rewrite Ec. extensionality x0. extensionality x1. unfold total; cbn [map fold_right]. ring.
    + exfalso. clear - H. induction Ls as [|M' Ls IHL]; [discriminate|]. now apply IHL.
Qed.
End Step.

Lemma okop_in Ls : fold_right (fun M P => okop M /\ P) True Ls -> forall M, In M Ls -> okop M.
Proof. induction Ls as [|L Ls IH]; intros H M I; [destruct I|]. destruct H as [H1 H2], I as [<-|I]; auto. Qed.
Lemma ccall_sound n : forall sh L c a c', fam sh c -> isarg a -> okop L -> ccall n L c a = Ok c' -> applied sh a (ksem L) (ceval c) c'.
Proof.
  induction n as [|n IH]; intros sh L c a c' F Ha O H; [discriminate|]. destruct L as [dom cod|d|s M|Ls|Ls]; cbn [ccall] in H.
  - unfold cov_id_call in H. apply bind_ok in H as (u & _ & [= <-]). right. split; [exact F|now destruct a].
  - destruct d as [al|al|b s w|s v]; cbn [cov_diffop_call ksem] in *.
    + apply (partial_app n IH sh (DPartial al) al); auto.
    + apply (partial_app n IH sh (DPartialNoJax al) al); auto.
    + now apply (lap_app n IH).
    + now apply (dir_app n IH).
  - apply bind_ok in H as (r & Hr & H). apply (IH sh) in Hr; auto. right.
    destruct (scale_app sh a (ksem M) (ceval c) s r c' ltac:(reflexivity) Hr H) as [F' E']. split; [exact F'|]. rewrite E'. now destruct a.
  - destruct Ls as [|L Ls]; [discriminate|]. cbn [cov_sum_call] in H. destruct (ccall n L c a) as [r|x] eqn:E.
    + apply (IH sh) in E; auto; [|now apply (okop_in _ O); left].
      destruct (sum_app n IH sh c a Ls F Ha (fun M HM => okop_in _ O M (or_intror HM)) r (in_arg a (ksem L) (ceval c)) c' E H) as [->|[F' E']]; [now left|].
      right. split; [exact F'|]. rewrite E'. now destruct a.
    + exfalso. clear - H. induction Ls as [|M Ls IHL]; [discriminate|]. now apply IHL.
  - unfold cov_comp_call in H. cbn [okop] in O. pose proof (okop_in _ O) as O'. clear O.
    assert (Ek : ksem (OComp Ls) = fun f => fold_left (fun h M => ksem M h) (rev Ls) f).
    { extensionality f. change (ksem (OComp Ls) f) with (fold_right (fun M h => ksem M h) f Ls). rewrite <- (rev_involutive Ls) at 1. now rewrite fold_left_rev_right. }
    rewrite Ek. clear Ek. assert (O : forall M, In M (rev Ls) -> okop M) by (intros M HM; apply O'; now apply in_rev). clear O'.
    revert c F H O. generalize (rev Ls). intros l. induction l as [|M l IHl]; intros c F H O.
    + injection H as <-. right. split; [exact F|now destruct a].
    + cbn [fold_left bind] in H. destruct (ccall n M c a) as [r|x] eqn:E.
      * apply (IH sh) in E; auto; [|apply O; now left]. destruct E as [->|[Fr Er]].
        { left. clear - H. revert H. induction l as [|M' l IHl]; intros H; [now injection H|]. cbn [fold_left bind] in H.
          destruct (ccall n M' CNotImpl a) as [r|x] eqn:E; [apply notimpl_call in E as ->; auto|].
          exfalso. clear - H. induction l as [|M'' l IHL]; [discriminate|]. now apply IHL. }
        specialize (IHl r Fr H (fun M' HM => O M' (or_intror HM))). rewrite Er in IHl. destruct a; exact IHl.
      * exfalso. clear - H. induction l as [|M'' l IHL]; [discriminate|]. now apply IHL.
Qed.
