(** C33, C45: derivatives of the ExpQuad covariance function in one or both arguments. *)
From Coq Require Import List Reals Lra Lia Bool Arith ZArith FunctionalExtensionality.
From Coquelicot Require Import Coquelicot.
From Verif Require Import Base NdArray FunExprModel DiffopModel DiffopSpec DiffopProofs LfoModel LfoSpec LfoSmooth LfoProofs LfoSound LfoTotal
  KernelModel KernelSpec KernelCalc ExpQuadProofs KernelSmooth KernelSound KernelComm.
Import ListNotations.
Open Scope R_scope.

(** Expressions over ExpQuad kernels, what evaluating them does, and what they mean. *)
Inductive kexpr :=
| KExp (e : expquad) | KScale (s : R) (x : kexpr) | KAdd (x y : kexpr) | KApply (L : lfo) (argnum : nat) (x : kexpr).
Fixpoint kbuild (fuel : nat) (x : kexpr) : result cov :=
  match x with
  | KExp e => Ok (CExp e)
  | KScale s x => bind (kbuild fuel x) (cov_scale s)
  | KAdd x y => bind (kbuild fuel x) (fun a => bind (kbuild fuel y) (fun b => cov_add a b))
  | KApply L n x => bind (kbuild fuel x) (fun c => ccall fuel L c n)
  end.
Fixpoint kmean (x : kexpr) : kernel :=
  match x with
  | KExp e => expquad_fun (eq_shape e) (eq_len e)
  | KScale s x => fun x0 x1 => s * kmean x x0 x1
  | KAdd x y => fun x0 x1 => kmean x x0 x1 + kmean y x0 x1
  | KApply L n x => in_arg n (ksem L) (kmean x)
  end.
Fixpoint kok (x : kexpr) : Prop :=
  match x with
  | KExp _ => True
  | KScale _ x => kok x
  | KAdd x y => kok x /\ kok y
  | KApply L n x => (n = 0%nat \/ n = 1%nat) /\ okop L /\ kok x
  end.

Lemma kbuild_sound fuel x c : kok x -> kbuild fuel x = Ok c -> c = CNotImpl \/ exists sh, fam sh c /\ ceval c = kmean x.
Proof.
  revert c. induction x as [e|s x IH|x IHx y IHy|L n x IH]; cbn [kok kbuild]; intros c O H.
  - injection H as <-. right. exists (eq_shape e). split; [now constructor|]. extensionality x0. extensionality x1. apply ev_spec.
  - apply bind_ok in H as (r & Hr & H). apply IH in Hr; [|exact O]. destruct Hr as [->|(sh & F & E)]; [discriminate|]. right. exists sh.
    destruct (scale_app sh 0 (fun f => f) (kmean x) s r c ltac:(reflexivity)) as [F' E']; [right; split; [exact F|exact E]|exact H|].
    split; [exact F'|exact E'].
  - apply bind_ok in H as (r & Hr & H). apply bind_ok in H as (t & Ht & H). apply IHx in Hr; [|tauto]. apply IHy in Ht; [|tauto].
    unfold cov_add in H. right.
    destruct Hr as [->|(sh & F & E)]; [discriminate|]. destruct Ht as [->|(sh' & F' & E')].
    { unfold mk_covsum in H. cbn [forallb is_cov] in H. rewrite andb_false_r in H. discriminate. }
    assert (S : sh' = sh).
    { unfold mk_covsum in H. match type of H with (if ?b then _ else _) = _ => destruct b end; [discriminate|].
      cbn [forallb] in H. destruct (shape_eqb_spec (c_shape t) (c_shape r)) as [S|S].
      - rewrite (fam_shape _ _ F), (fam_shape _ _ F') in S. exact S.
      - cbn [andb] in H. rewrite andb_false_r in H. discriminate. }
    subst sh'. exists sh. destruct (covsum_app sh [r; t] c) as (Fc & _ & Ec); [|exact H|].
    { intros z [<-|[<-|[]]]; now right. }
    split; [exact Fc|]. rewrite Ec. extensionality x0. extensionality x1. unfold total. cbn [map fold_right kmean]. rewrite E, E'. ring.
  - apply bind_ok in H as (r & Hr & H). destruct O as (Hn & OL & O). apply IH in Hr; [|exact O]. destruct Hr as [->|(sh & F & E)].
    + left. now apply notimpl_call in H.
    + destruct (ccall_sound fuel sh L r n c F Hn OL H) as [->|[F' E']]; [now left|]. right. exists sh. split; [exact F'|]. rewrite E', E. reflexivity.
Qed.

(** Every covariance function obtained from ExpQuad kernels by scaling, adding and
    applying operators to either argument is the corresponding derivative, at every
    pair of points; otherwise the result is the object [NotImplemented]. *)
Theorem C33_sound : forall fuel x c, kok x -> kbuild fuel x = Ok c -> c <> CNotImpl ->
  forall x0 x1, ceval c x0 x1 = kmean x x0 x1.
Proof. intros fuel x c O H N x0 x1. destruct (kbuild_sound fuel x c O H) as [->|(sh & _ & ->)]; [congruence|reflexivity]. Qed.

(** The derivatives exist: every such covariance function is smooth in each argument. *)
Theorem C33_smooth : forall fuel x c, kok x -> kbuild fuel x = Ok c -> c <> CNotImpl ->
  (forall x1, smooth (c_shape c) (fun y => ceval c y x1)) /\ (forall x0, smooth (c_shape c) (fun y => ceval c x0 y)).
Proof.
  intros fuel x c O H N. destruct (kbuild_sound fuel x c O H) as [->|(sh & F & _)]; [congruence|].
  rewrite (fam_shape sh c F). apply class_smooth. now apply fam_class.
Qed.

(** Calling the covariance function with one argument gives the value at coincident points. *)
Lemma vdiff_self (x : array) : vdiff x x = fun _ => 0.
Proof. extensionality i. unfold vdiff. ring. Qed.
Lemma bsum0 sh (g : array) : (forall i, g i = 0) -> bsum sh g = 0.
Proof. intros H. unfold bsum. apply (total_zero g). intros; apply H. Qed.
Lemma fam_diag sh c : fam sh c -> forall x, cnone c x = ceval c x x.
Proof.
  induction 1 as [e E|e v r E|e v0 v1 E|e w r E|e w0 w1 E|e v w r E|s c F IH|c cs F IH|f K]; intros x; cbn [cnone ceval].
  - unfold expquad_eval, bnorm_sq. rewrite vdiff_self, bsum0 by (intros; ring). now rewrite Ropp_0, exp_0.
  - unfold expdir_eval. rewrite vdiff_self, bsum0 by (intros; ring). ring.
  - unfold expdirdir_eval, bnorm_sq. rewrite vdiff_self. rewrite !(bsum0 (eq_shape e)) by (intros; unfold Rdiv; ring). match goal with |- context[exp ?z] => replace z with 0 by ring end. rewrite exp_0. ring.
  - unfold explap_eval, bnorm_sq. rewrite vdiff_self. rewrite !(bsum0 (eq_shape e)) by (intros; ring). rewrite Ropp_0, exp_0. ring.
  - unfold explaplap_eval, bnorm_sq. rewrite vdiff_self. rewrite !(bsum0 (eq_shape e)) by (intros; ring). rewrite Ropp_0, exp_0. ring.
  - unfold expdirlap_eval. rewrite vdiff_self. rewrite !(bsum0 (eq_shape e)) by (intros; ring). destruct r; ring.
  - now rewrite IH.
  - unfold rsum. f_equal. apply map_ext_in. intros c' Hc. now apply IH.
  - reflexivity.
Qed.
Theorem C33_one_argument : forall fuel x c, kok x -> kbuild fuel x = Ok c -> c <> CNotImpl -> forall p, cnone c p = kmean x p p.
Proof.
  intros fuel x c O H N p. destruct (kbuild_sound fuel x c O H) as [->|(sh & F & E)]; [congruence|]. rewrite (fam_diag sh c F). now rewrite E.
Qed.

(** Directional derivatives and weighted Laplacians of the kernel in one argument, and a
    further one in the other argument, are available in closed form. *)
Lemma validate_fits sh c a : isarg a -> c_shape c = sh -> validate sh [] c a = Ok tt.
Proof.
  intros A <-. unfold validate. destruct A as [-> | ->]; cbn [Nat.eqb orb negb];
  (destruct (shape_eqb_spec (c_shape c) (c_shape c)); [|congruence]); reflexivity.
Qed.
Inductive closed_op (sh : shape) : dop -> Prop :=
| co_dir v : closed_op sh (DDir sh v)
| co_lap b w : closed_op sh (DLap b sh w).
Definition is_lap (d : dop) : bool := match d with DLap _ _ _ => true | _ => false end.
Theorem C33_one_operator : forall n e d a, closed_op (eq_shape e) d -> a = 0%nat \/ a = 1%nat ->
  exists c, ccall (S n) (ODiff d) (CExp e) a = Ok c /\ c <> CNotImpl /\
    forall x0 x1, ceval c x0 x1 = in_arg a (dsem d) (expquad_fun (eq_shape e) (eq_len e)) x0 x1.
Proof.
  intros n e d a D A.
  assert (G : exists c, ccall (S n) (ODiff d) (CExp e) a = Ok c /\ c <> CNotImpl).
  { destruct D; cbn [ccall cov_diffop_call]; unfold cov_dir_call, cov_lap_call; rewrite validate_fits by (unfold isarg; auto); cbn [bind];
      (eexists; split; [reflexivity|discriminate]). }
  destruct G as (c & H & N). exists c. split; [exact H|]. split; [exact N|].
  apply (C33_sound (S n) (KApply (ODiff d) a (KExp e)) c); [|exact H|exact N]. cbn. split; [exact A|]. split; [destruct D; exact Logic.I|exact Logic.I].
Qed.
Theorem C33_both_arguments : forall n e d a d', closed_op (eq_shape e) d -> closed_op (eq_shape e) d' -> a = 0%nat \/ a = 1%nat ->
  (a = 0%nat -> is_lap d && is_lap d' = false) ->
  exists c, bind (ccall (S n) (ODiff d) (CExp e) a) (fun k => ccall (S n) (ODiff d') k (1 - a)) = Ok c /\ c <> CNotImpl /\
    forall x0 x1, ceval c x0 x1 = in_arg (1 - a) (dsem d') (in_arg a (dsem d) (expquad_fun (eq_shape e) (eq_len e))) x0 x1.
Proof.
  intros n e d a d' D D' A X.
  assert (G : exists c, bind (ccall (S n) (ODiff d) (CExp e) a) (fun k => ccall (S n) (ODiff d') k (1 - a)) = Ok c /\ c <> CNotImpl).
  { destruct A as [-> | ->], D, D'; cbn [ccall cov_diffop_call Nat.sub]; unfold cov_dir_call, cov_lap_call;
      repeat (rewrite validate_fits by (unfold isarg; auto); cbn [bind]); cbn [is0 is1 Nat.eqb andb orb negb];
      try (eexists; split; [reflexivity|discriminate]). exfalso. specialize (X eq_refl). discriminate. }
  destruct G as (c & H & N). exists c. split; [exact H|]. split; [exact N|].
  apply (C33_sound (S n) (KApply (ODiff d') (1 - a) (KApply (ODiff d) a (KExp e))) c); [|exact H|exact N]. cbn.
  split; [destruct A as [-> | ->]; auto|]. split; [destruct D'; exact Logic.I|]. split; [exact A|]. split; [destruct D; exact Logic.I|exact Logic.I].
Qed.
(** Two Laplacians, the first one on argument 0, fail. *)
Theorem C33_two_laplacians_refuted : forall n e b b' w w',
  bind (ccall (S n) (ODiff (DLap b (eq_shape e) w)) (CExp e) 0) (fun k => ccall (S n) (ODiff (DLap b' (eq_shape e) w')) k 1) = Err AttributeError.
Proof.
  intros. cbn [ccall cov_diffop_call]. unfold cov_lap_call.
  repeat (rewrite validate_fits by (unfold isarg; auto); cbn [bind]). reflexivity.
Qed.
(** Any other argument number, or points of another shape, are rejected. *)
Theorem C33_rejects : forall n e d a, closed_op (d_dom d) d -> ~ (a = 0%nat \/ a = 1%nat) \/ d_dom d <> eq_shape e ->
  ccall (S n) (ODiff d) (CExp e) a = Err ValueError.
Proof.
  intros n e d a D H. assert (V : validate (d_dom d) [] (CExp e) a = Err ValueError).
  { unfold validate. destruct a as [|[|a]]; cbn [Nat.eqb orb negb]; [| |reflexivity];
    (destruct (shape_eqb_spec (c_shape (CExp e)) (d_dom d)) as [E|E]; [|reflexivity]); cbn in E; exfalso; destruct H as [H|H]; try congruence; apply H; auto. }
  inversion D as [v E|b w E]; rewrite <- E in *; cbn [ccall cov_diffop_call d_dom] in *; unfold cov_dir_call, cov_lap_call; rewrite V; reflexivity.
Qed.

(** ** Paths without an answer *)
(** Partial derivatives of order at least one in more than one dimension return the
    object [NotImplemented]; applying a directional derivative again to the same argument
    then raises TypeError, and for scalar inputs never returns. *)
Theorem C33_partial_refuted : forall n e al a, (a = 0%nat \/ a = 1%nat) -> mi_shape al = eq_shape e -> mi_order al <> 0%nat ->
  size (eq_shape e) <> 1%nat -> ccall (S n) (ODiff (DPartial al)) (CExp e) a = Ok CNotImpl.
Proof.
  intros n e al a A Hs O S. cbn [ccall cov_diffop_call]. unfold cov_partial_call. cbn [pd_registered]. unfold partial_derivative_fallback.
  rewrite validate_fits by (unfold isarg; auto). cbn [bind]. rewrite Hs. apply Nat.eqb_neq in O, S. now rewrite O, S.
Qed.
Lemma fold_err {A} (f : A -> lfo -> result A) Ls x : fold_left (fun acc M => bind acc (fun a => f a M)) Ls (Err x) = Err x.
Proof. induction Ls as [|M Ls IH]; [reflexivity|exact IH]. Qed.
Theorem C33_repeated_refuted : forall n e dir d, (exists i, valid_index (eq_shape e) i /\ d i <> 0) -> size (eq_shape e) <> 1%nat ->
  bind (ccall (S n) (ODiff (DDir (eq_shape e) dir)) (CExp e) 0) (fun k => ccall (5 + n) (ODiff (DDir (eq_shape e) d)) k 0) = Err TypeError.
Proof.
  intros n e dir d T S.
  replace (ccall (Datatypes.S n) (ODiff (DDir (eq_shape e) dir)) (CExp e) 0) with (Ok (CExpDir e dir true))
    by (cbn [ccall cov_diffop_call]; unfold cov_dir_call; rewrite validate_fits by (unfold isarg; auto); reflexivity).
  cbn [bind]. change (5 + n)%nat with (Datatypes.S (4 + n)). cbn [ccall cov_diffop_call]. unfold cov_dir_call.
  rewrite validate_fits by (unfold isarg; auto). cbn [bind is0 is1 Nat.eqb negb andb].
  unfold cov_lindiffop_call. cbn [is_cov negb d_dom]. rewrite validate_fits by (unfold isarg; auto). cbn [bind].
  unfold cov_call_no_jax. cbn [cov_base_call or_else is_partial].
  destruct (to_sum_form (DDir (eq_shape e) d) eq_refl T) as (y0 & a0 & inn & -> & Hinn). cbn [bind map].
  destruct (Hinn a0 y0 (or_introl eq_refl)) as (Hs & _ & O). cbn [d_dom] in Hs.
  change (4 + n)%nat with (Datatypes.S (3 + n)). cbn [ccall cov_sum_call fold_left].
  change (3 + n)%nat with (Datatypes.S (2 + n)). cbn [ccall cov_sum_call].
  change (2 + n)%nat with (Datatypes.S (1 + n)). cbn [ccall].
  change (1 + n)%nat with (Datatypes.S n). cbn [ccall cov_diffop_call]. unfold cov_partial_call at 1. cbn [pd_registered]. unfold partial_derivative_fallback.
  rewrite validate_fits by (unfold isarg; auto). cbn [bind]. rewrite Hs. apply Nat.eqb_neq in O, S. rewrite O, S. cbn [andb bind cov_scale].
  rewrite (fold_err (fun a M => bind (ccall (Datatypes.S (Datatypes.S n)) M (CExpDir e dir true) 0) (fun b => cov_add a b))). reflexivity.
Qed.
Lemma to_sum_scalar d : d [] <> 0 -> to_sum_no_jax (DDir [] d) = Ok (OSum [OSum [OScaled (d []) (ODiff (DPartialNoJax (unit_mi [] [] 1)))]]).
Proof.
  intros N. unfold to_sum_no_jax. cbn [d_coeffs]. destruct (axis_ok RF RF_laws [] d 1) as (c & Hc & _); [discriminate|].
  unfold directional_derivative. rewrite Hc. cbn [bind]. apply mk_coeffs_inv in Hc as ->. cbn [c_dict]. rewrite axis_list by discriminate.
  cbn [mapM]. unfold axis_items, all_indices. cbn [flat_map app]. 
  replace (feqb (f := RF) (d []) f0) with false by (cbn; destruct (Req_EM_T (d []) 0); congruence). reflexivity.
Qed.
Theorem C33_repeated_scalar_refuted : forall n m l dir d, d [] <> 0 ->
  bind (ccall (S m) (ODiff (DDir [] dir)) (CExp (ExpQuad [] l)) 0) (fun k => ccall n (ODiff (DDir [] d)) k 0) = Err RecursionError.
Proof.
  intros n m l dir d N. replace (ccall (S m) (ODiff (DDir [] dir)) (CExp (ExpQuad [] l)) 0) with (Ok (CExpDir (ExpQuad [] l) dir true)) by reflexivity. cbn [bind].
  revert d N. induction n as [n IH] using (well_founded_induction lt_wf). intros d N.
  destruct n as [|n]; [reflexivity|]. cbn [ccall cov_diffop_call]. unfold cov_dir_call.
  rewrite validate_fits by (unfold isarg; auto). cbn [bind is0 is1 Nat.eqb negb andb].
  unfold cov_lindiffop_call. cbn [is_cov negb d_dom]. rewrite validate_fits by (unfold isarg; auto). cbn [bind].
  unfold cov_call_no_jax. cbn [cov_base_call or_else is_partial]. rewrite to_sum_scalar by exact N. cbn [bind].
  destruct n as [|n]; [reflexivity|]. cbn [ccall cov_sum_call fold_left].
  destruct n as [|n]; [reflexivity|]. cbn [ccall cov_sum_call fold_left].
  destruct n as [|n]; [reflexivity|]. cbn [ccall].
  destruct n as [|n]; [reflexivity|]. cbn [ccall cov_diffop_call]. unfold cov_partial_call. cbn [pd_registered]. unfold partial_derivative_fallback.
  rewrite validate_fits by (unfold isarg; auto). cbn [bind].
  replace ((mi_order (unit_mi [] [] 1) =? 0)%nat) with false by reflexivity.
  replace ((size (mi_shape (unit_mi [] [] 1)) =? 1)%nat && (mi_order (unit_mi [] [] 1) =? 1)%nat) with true by reflexivity.
  rewrite IH; [reflexivity|lia|lra].
Qed.

(** * C45 *)
(** The object obtained does not depend on the order of the operators. *)
Definition both (n : nat) (k : cov) (d0 d1 : dop) : result cov :=
  bind (ccall (S n) (ODiff d0) k 0) (fun k' => ccall (S n) (ODiff d1) k' 1).
Definition both' (n : nat) (k : cov) (d0 d1 : dop) : result cov :=
  bind (ccall (S n) (ODiff d1) k 1) (fun k' => ccall (S n) (ODiff d0) k' 0).
Theorem C45_expquad : forall n e d0 d1, closed_op (eq_shape e) d0 -> closed_op (eq_shape e) d1 -> is_lap d0 && is_lap d1 = false ->
  exists c, both n (CExp e) d0 d1 = Ok c /\ both' n (CExp e) d0 d1 = Ok c.
Proof.
  intros n e d0 d1 D0 D1 X. unfold both, both'.
  destruct D0, D1; try discriminate; cbn [ccall cov_diffop_call]; unfold cov_dir_call, cov_lap_call;
      repeat (rewrite validate_fits by (unfold isarg; auto); cbn [bind]); cbn [is0 is1 Nat.eqb andb orb negb]; eexists; split; reflexivity.
Qed.
Theorem C45_two_laplacians_refuted : forall n e b b' w w', exists c,
  both n (CExp e) (DLap b (eq_shape e) w) (DLap b' (eq_shape e) w') = Err AttributeError /\
  both' n (CExp e) (DLap b (eq_shape e) w) (DLap b' (eq_shape e) w') = Ok c.
Proof.
  intros. unfold both, both'. cbn [ccall cov_diffop_call]; unfold cov_dir_call, cov_lap_call;
      repeat (rewrite validate_fits by (unfold isarg; auto); cbn [bind]); cbn [is0 is1 Nat.eqb andb orb negb]; eexists; split; reflexivity.
Qed.
(** Arbitrary operators on arbitrary expressions: if both orders return covariance
    functions, these agree everywhere. *)
Theorem C45_values : forall fuel sh x L0 L1 k c c', kok x -> okop L0 -> okop L1 -> opdom sh L0 -> opdom sh L1 ->
  kbuild fuel x = Ok k -> c_shape k = sh -> c <> CNotImpl -> c' <> CNotImpl ->
  bind (ccall fuel L0 k 0) (fun k' => ccall fuel L1 k' 1) = Ok c ->
  bind (ccall fuel L1 k 1) (fun k' => ccall fuel L0 k' 0) = Ok c' ->
  forall x0 x1, ceval c x0 x1 = ceval c' x0 x1.
Proof.
  intros fuel sh x L0 L1 k c c' O O0 O1 D0 D1 Hk Hs N N' H H' x0 x1.
  assert (E : ceval c x0 x1 = kmean (KApply L1 1 (KApply L0 0 x)) x0 x1).
  { apply (C33_sound fuel); [cbn; auto| |exact N]. cbn [kbuild]. rewrite Hk. exact H. }
  assert (E' : ceval c' x0 x1 = kmean (KApply L0 0 (KApply L1 1 x)) x0 x1).
  { apply (C33_sound fuel); [cbn; auto| |exact N']. cbn [kbuild]. rewrite Hk. exact H'. }
  rewrite E, E'. cbn [kmean]. destruct (kbuild_sound fuel x k O Hk) as [->|(s & F & V)].
  - exfalso. apply N. apply bind_ok in H as (k' & Hk' & H). apply notimpl_call in Hk' as ->. now apply notimpl_call in H.
  - rewrite <- V. rewrite (fam_shape _ _ F) in Hs. subst s. symmetry.
    exact (f_equal (fun g => g x0 x1) (comm_args sh L0 L1 (ceval k) D0 D1 (fam_class sh k F))).
Qed.

(** * Examples *)
Definition ex_e : expquad := ExpQuad [2%nat] (fun i => match i with [0%nat] => 1 | _ => 2 end).
Definition ex_dir : array := fun i => match i with [0%nat] => 1 | _ => 0 end.
Definition ex_w : array := fun i => match i with [0%nat] => 3 | _ => -1 end.
(** [2 * D_dir L_w k + D_dir k], the first summand with the operators on different arguments. *)
Definition ex_kexpr : kexpr :=
  KAdd (KScale 2 (KApply (ODiff (DDir [2%nat] ex_dir)) 1 (KApply (ODiff (DLap false [2%nat] ex_w)) 0 (KExp ex_e))))
       (KApply (OScaled 5 (ODiff (DDir [2%nat] ex_dir))) 0 (KExp ex_e)).
Example C33_sound_example : kok ex_kexpr /\ exists c, kbuild 5 ex_kexpr = Ok c /\ c <> CNotImpl.
Proof. split; [cbn; intuition auto|]. eexists. split; [reflexivity|discriminate]. Qed.
(** A third derivative goes through the automatic differentiation fallback. *)
Example C33_third_example : exists c, kbuild 9 (KApply (ODiff (DDir [2%nat] ex_dir)) 0
    (KApply (ODiff (DDir [2%nat] ex_dir)) 1 (KApply (ODiff (DDir [2%nat] ex_dir)) 0 (KExp ex_e)))) = Ok c /\ c <> CNotImpl.
Proof.
  cbn [kbuild bind]. 
  replace (ccall 9 (ODiff (DDir [2%nat] ex_dir)) (CExp ex_e) 0) with (Ok (CExpDir ex_e ex_dir true)) by reflexivity. cbn [bind].
  replace (ccall 9 (ODiff (DDir [2%nat] ex_dir)) (CExpDir ex_e ex_dir true) 1) with (Ok (CExpDirDir ex_e ex_dir ex_dir)) by reflexivity. cbn [bind].
  change 9%nat with (S 8). cbn [ccall cov_diffop_call]. unfold cov_dir_call, cov_lindiffop_call. cbn [is_cov negb d_dom].
  replace (validate [2%nat] [] (CExpDirDir ex_e ex_dir ex_dir) 0) with (Ok tt) by reflexivity. cbn [bind]. unfold cov_call_no_jax. cbn [cov_base_call or_else is_partial].
  assert (T : dtotal (DDir [2%nat] ex_dir)).
  { exists [0%nat]. split; [repeat constructor|cbn; lra]. }
  destruct (to_sum_form (DDir [2%nat] ex_dir) eq_refl T) as (y0 & a0 & inn & -> & Hinn). cbn [bind map].
  destruct (Hinn a0 y0 (or_introl eq_refl)) as (Hs & _ & O). cbn [d_dom] in Hs.
  change 8%nat with (S 7). cbn [ccall cov_sum_call fold_left]. change 7%nat with (S 6). cbn [ccall cov_sum_call].
  change 6%nat with (S 5). cbn [ccall]. change 5%nat with (S 4). cbn [ccall cov_diffop_call]. unfold cov_partial_call at 1. cbn [pd_registered].
  apply Nat.eqb_neq in O. rewrite O. unfold cov_lindiffop_call at 1. cbn [is_cov negb d_dom]. rewrite Hs.
  replace (validate [2%nat] [] (CExpDirDir ex_e ex_dir ex_dir) 0) with (Ok tt) by reflexivity. cbn [bind].
  unfold cov_call_no_jax. cbn [cov_base_call or_else is_partial]. unfold cov_jax at 1. cbn [jax_op bind].
  rewrite (fold_err (fun a M => bind (ccall 6 M (CExpDirDir ex_e ex_dir ex_dir) 0) (fun b => cov_add a b))). cbn [or_else].
  eexists. split; [reflexivity|discriminate].
Qed.
Example C45_values_example : opdom [2%nat] (OScaled 5 (ODiff (DDir [2%nat] ex_dir))) /\ opdom [2%nat] (ODiff (DLap false [2%nat] ex_w)) /\
  exists c c', c <> CNotImpl /\ c' <> CNotImpl /\
  bind (ccall 5 (OScaled 5 (ODiff (DDir [2%nat] ex_dir))) (CExp ex_e) 0) (fun k => ccall 5 (ODiff (DLap false [2%nat] ex_w)) k 1) = Ok c /\
  bind (ccall 5 (ODiff (DLap false [2%nat] ex_w)) (CExp ex_e) 1) (fun k => ccall 5 (OScaled 5 (ODiff (DDir [2%nat] ex_dir))) k 0) = Ok c'.
Proof. split; [reflexivity|]. split; [reflexivity|]. do 2 eexists. repeat split; try reflexivity; discriminate. Qed.

Print Assumptions C33_sound.
Print Assumptions C33_smooth.
Print Assumptions C33_one_argument.
Print Assumptions C33_both_arguments.
Print Assumptions C33_repeated_scalar_refuted.
Print Assumptions C45_expquad.
Print Assumptions C45_values.
