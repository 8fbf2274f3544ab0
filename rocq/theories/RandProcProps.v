(** C59: linear functionals and operators applied to random processes. *)
From Coq Require Import List Reals Lra Lia Bool Arith FunctionalExtensionality.
From Coquelicot Require Import Coquelicot.
From Verif Require Import Base NdArray NdData BlockModel BlockProofs CovModel CovSpec CovProofs CrossModel CrossSpec CrossProofs CrossViews CrossKern CrossFun CrossOps
  PolyClassModel FunExprModel FunExprProofs DiffopModel DiffopSpec LfoModel LfoSpec LfoSmooth LfoProofs LfoSound LfoAlg KernelSpec KernelSmooth KernelComm
  ParamSpec TensorSchur PsdBase PsdDiff PsdProps FunctlModel FunctlSpec FunctlProofs FunctlAlg FunctlTotal RandProcModel RandProcSpec RandProcProofs.
From Verif Require CrossProps KernelModel KernelProps PsdSpec.
From Verif Require Import LfoTotal FunctlProps.
Import ListNotations.
Open Scope R_scope.

(** Where the entry [r] of the value of a functional is found in the mean of the normal
    random variable: numbers become vectors of length one. *)
Definition mean_at (o : shape) (r : index) : index := match o with [] => [0%nat] | _ => r end.
Definition mean_shape (o : shape) : shape := match o with [] => [1%nat] | _ => o end.

(** Functionals of a Gaussian process with scalar values: the mean is the functional of the
    mean and the covariance the functional of the covariance function in both arguments.
    Operators are applied to the cross-covariance term by term, which agrees with their
    meaning for smooth sections, and for all covariance functions if no operator acts on a
    sum. *)
Definition smooth_sections (L : lfn) (dom : shape) (v : array -> array -> R) : Prop :=
  forall r c l, In (c, l) (lterms L r) -> smooth dom (fun x => l (v x)).
Theorem C59_functional : forall n L dom m (v : array -> array -> index -> index -> R) z, lwf L -> l_in L = (dom, []) -> matrices_ok L = true ->
  fwf m -> fsm m -> (in_shape m, out_shape m) = (dom, []) -> tame L = true \/ smooth_sections L dom (fun x y => v x y [] []) -> functl_gp n L m (KLeaf dom [] [] (v : kern)) = Ok z ->
  exists mean C, z = VNormal mean C /\ nshape mean = mean_shape (l_out L) /\
    (forall r, valid_index (l_out L) r -> nat_ mean (mean_at (l_out L) r) = lin_mean L (fun x => feval m x []) r) /\
    matrix_shows C (l_out L) (l_out L) (lin_cov L (fun x y => v x y [] []) : index -> index -> RF).
Proof.
  intros n L dom m v z W EI HM Wm Sm Em HT H. unfold functl_gp in H.
  destruct (lcall n L m) as [mu|] eqn:Emu; [|discriminate]. cbn [bind] in H.
  destruct (lk_good L dom v W EI HM) as (p & Ep & G & _ & HV). rewrite Ep in H. cbn [bind] in H.
  destruct (lp L p) as [c|] eqn:Ec; [|discriminate]. cbn [bind] in H.
  assert (HR : regular dom L (sections L (fun x y => v x y [] []))).
  { destruct (lp_opened L dom p _ _ c W EI G Ec) as [I V]. destruct (no_operator L) eqn:NO; [now left|right]. split; [now rewrite only_vals, I, <- HV, V|].
    destruct HT as [HT|HT]; [now left|right]. intros r t Ht. apply in_map_iff in Ht as ([k l] & <- & Hl). exact (HT r k l Hl). }
  assert (Sc := lp_sound L dom p _ _ c W EI G HR Ec).
  destruct Sc as (_ & _ & _ & _ & C & EC & SC). rewrite EC in H. cbn [bind] in H. destruct (native n L m); [discriminate|].
  destruct (lcall_sound n L m mu W Wm Sm) as [Smu Vmu]; [congruence|exact Emu|]. rewrite Smu in H.
  assert (X : exists mu', (if shape_eqb (l_out L) [] then reshape mu [1%nat] else Ok mu) = Ok mu' /\ nshape mu' = mean_shape (l_out L) /\
    forall r, valid_index (l_out L) r -> nat_ mu' (mean_at (l_out L) r) = nat_ mu r).
  { destruct (shape_eqb_spec (l_out L) []) as [E|E].
    - unfold reshape. rewrite Smu, E. cbn [size fold_right Nat.mul Nat.eqb]. eexists. split; [reflexivity|]. split; [reflexivity|]. intros r Hr. inversion Hr. reflexivity.
    - exists mu. split; [reflexivity|]. destruct (l_out L); [congruence|]. auto. }
  destruct X as (mu' & Emu' & Smu' & Vmu'). rewrite Emu' in H. cbn [bind] in H. unfold mk_normal in H. destruct (_ && _) eqn:E; [|discriminate]. injection H as <-.
  exists mu', C. split; [reflexivity|]. split; [exact Smu'|]. split.
  - intros r Hr. rewrite Vmu', Vmu by exact Hr. now apply (lsem_terms L dom).
  - destruct SC as (R1 & R2 & V). split; [exact R1|]. split; [exact R2|]. intros i j Hi Hj. rewrite (V i j Hi Hj). unfold pairing, lin_cov. apply weigh_ext. intros a l _.
    unfold sections. apply (weigh_map (fun l' x => l' (fun y => v x y [] []))).
Qed.
(** The mean in terms of the expression that built the functional (C44). *)
Theorem C59_expression : forall e dom o, fty e (dom, []) o -> exists L, fbuild e = Ok L /\ l_in L = (dom, []) /\ l_out L = o /\ lwf L /\
  (forall m, vsmooth (dom, []) (fun x _ => m x) -> forall r, valid_index o r -> lin_mean L m r = fmeaning e (fun x _ => m x) r) /\
  (forall v, (forall x, vsmooth (dom, []) (fun y _ => v x y)) -> (forall r, valid_index o r -> vsmooth (dom, []) (fun x _ => fmeaning e (fun y _ => v x y) r)) ->
     (forall s r, valid_index o s -> valid_index o r -> forall c l, In (c, l) (lterms L s) ->
        l (fun x => weigh (lterms L r) (fun l' => l' (v x))) = weigh (lterms L r) (fun l' => l (fun x => l' (v x)))) ->
     forall s r, valid_index o s -> valid_index o r -> lin_cov L v s r = fmeaning e (fun x _ => fmeaning e (fun y _ => v x y) r) s).
Proof.
  intros e dom o T. destruct (fbuild_ok e (dom, []) o T) as (L & B & W & Ei & Eo & V). exists L. split; [exact B|]. split; [exact Ei|]. split; [exact Eo|]. split; [exact W|].
  assert (M : forall m, vsmooth (dom, []) (fun x _ => m x) -> forall r, valid_index o r -> lin_mean L m r = fmeaning e (fun x _ => m x) r).
  { intros m Hm r Hr. rewrite <- (V _ Hm r Hr). symmetry. apply (lsem_terms L dom (fun x _ => m x)); auto. now rewrite Eo. }
  split; [exact M|]. intros v Hv Hw Hl s r Hs Hr. unfold lin_cov.
  rewrite <- (M (fun x => fmeaning e (fun y _ => v x y) r) (Hw r Hr) s Hs). unfold lin_mean. apply weigh_ext. intros c l Hc. rewrite <- (Hl s r Hs Hr c l Hc). f_equal.
  extensionality x. symmetry. rewrite <- (M (v x) (Hv x) r Hr). reflexivity.
Qed.
(** They return a random variable for functionals without operators, and for values of
    operators, whenever the functional of the mean is an array with at most two axes. *)
Theorem C59_total : forall n L dom m (v : array -> array -> index -> index -> R) mu, lwf L -> l_in L = (dom, []) -> matrices_ok L = true ->
  fwf m -> fsm m -> (in_shape m, out_shape m) = (dom, []) -> no_operator L = true \/ only_values L = true ->
  lcall n L m = Ok mu -> native n L m = false -> (length (l_out L) <= 2)%nat ->
  exists z, functl_gp n L m (KLeaf dom [] [] (v : kern)) = Ok z.
Proof.
  intros n L dom m v mu W EI HM Wm Sm Em HO Emu HN HL. unfold functl_gp. rewrite Emu. cbn [bind].
  destruct (lk_good L dom v W EI HM) as (p & Ep & G & _ & HV). rewrite Ep. cbn [bind].
  destruct (lp_total L dom p _ _ W EI G) as (c & g & Ec & Sc); [destruct HO as [HO|HO]; [now left|right; split; [exact HO|]; rewrite only_vals in HO; rewrite HV; now apply andb_prop in HO]|].
  rewrite Ec. cbn [bind]. destruct Sc as (_ & _ & _ & _ & C & EC & R1 & R2 & _). rewrite EC. cbn [bind]. rewrite HN.
  destruct (lcall_sound n L m mu W Wm Sm) as [Smu _]; [congruence|exact Emu|]. rewrite Smu.
  destruct (shape_eqb_spec (l_out L) []) as [E|E].
  - unfold reshape. rewrite Smu, E. cbn [size fold_right Nat.mul Nat.eqb bind]. unfold mk_normal. rewrite R1, R2, E. cbn. eauto.
  - cbn [bind]. unfold mk_normal. rewrite Smu, R1, R2, !Nat.eqb_refl. apply Nat.leb_le in HL. rewrite HL. cbn. eauto.
Qed.
(** And for no others. *)
Theorem C59_accepted : forall n L dom m (v : array -> array -> index -> index -> R) z, lwf L -> l_in L = (dom, []) -> matrices_ok L = true ->
  functl_gp n L m (KLeaf dom [] [] (v : kern)) = Ok z -> no_operator L = true \/ only_values L = true.
Proof.
  intros n L dom m v z W EI HM H. unfold functl_gp in H. destruct (lcall n L m) as [mu|]; [|discriminate]. cbn [bind] in H.
  destruct (lk_good L dom v W EI HM) as (p & Ep & G & _ & HV). rewrite Ep in H. cbn [bind] in H. destruct (lp L p) as [c|] eqn:Ec; [|discriminate].
  destruct (lp_opened L dom p _ _ c W EI G Ec) as [I V]. destruct (no_operator L) eqn:NO; [now left|right]. now rewrite only_vals, I, <- HV, V.
Qed.
(** The sections are smooth for the kernels of the class of C56. *)
Theorem C59_smooth_sections : forall L dom v, only_values L = true -> lwf L -> l_in L = (dom, []) -> kclass dom v -> smooth_sections L dom v.
Proof.
  intros L dom v HV W EI Hk r c l HI. rewrite (vterms_ok L r HV) in HI. apply in_map_iff in HI as ([k [Q x]] & [= <- <-] & Ht).
  assert (D := vterms_dom L dom r W EI _ Ht). cbn [fst snd] in *. assert (K := lin_ksem dom 1 Q D). destruct K as [K _].
  apply (proj1 (class_smooth dom _ (K v Hk)) x).
Qed.
(** The covariance is symmetric and positive semidefinite for values of operators and
    kernels of the class of C56. *)
Lemma form_flat {X Y} (K : X -> X -> R) (J : Y -> Y -> R) (g : X -> list (R * Y)) :
  (forall x y, K x y = sumR (fun p => sumR (fun q => fst p * fst q * J (snd p) (snd q)) (g y)) (g x)) ->
  forall l, form K l = form J (flat_map (fun p => map (fun q => (fst p * fst q, snd q)) (g (snd p))) l).
Proof.
  intros E l. unfold form. rewrite sumR_flat. apply sumR_ext. intros [c x] _. rewrite sumR_map. cbn [fst snd].
  rewrite (sumR_ext (fun q => sumR (fun r => c * fst q * fst r * J (snd q) (snd r)) (flat_map (fun p => map (fun q0 => (fst p * fst q0, snd q0)) (g (snd p))) l))
    (fun q => sumR (fun r => sumR (fun s => c * fst r * (fst q * fst s * J (snd q) (snd s))) (g (snd r))) l)).
  - rewrite sumR_swap. apply sumR_ext. intros [d y] _. cbn [fst snd]. rewrite E, sumR_scal. apply sumR_ext. intros q _. rewrite sumR_scal. reflexivity.
  - intros q _. rewrite sumR_flat. apply sumR_ext. intros r _. rewrite sumR_map. apply sumR_ext. intros s _. cbn [fst snd]. ring.
Qed.
Lemma lin_cov_values L dom v s r : only_values L = true -> lwf L -> l_in L = (dom, []) -> kclass dom v ->
  lin_cov L v s r = sumR (fun p => sumR (fun q => fst p * fst q * opk v (snd p) (snd q)) (vterms L r)) (vterms L s).
Proof.
  intros HV W EI Hk. unfold lin_cov. rewrite !(vterms_ok L _ HV). unfold weigh. rewrite map_map. rewrite sumR_total. f_equal. apply map_ext_in. intros p Hp.
  cbn [at_term fst snd]. rewrite map_map. rewrite <- sumR_total, sumR_scal. apply sumR_ext. intros q Hq. cbn [at_term fst snd].
  rewrite Rmult_assoc. f_equal. f_equal. unfold opk. symmetry.
  rewrite <- (comm_args dom (fst (snd p)) (fst (snd q)) v); [reflexivity| | |exact Hk]; now apply (vterms_dom L dom _ W EI) with (1 := Hp) || now apply (vterms_dom L dom _ W EI) with (1 := Hq).
Qed.
Theorem C59_covariance_psd : forall L dom v, only_values L = true -> lwf L -> l_in L = (dom, []) -> kclass dom v -> psd_kernel (v : array -> array -> RF) ->
  psd_kernel (lin_cov L v : index -> index -> RF).
Proof.
  intros L dom v HV W EI Hk Hp l. change (0 <= form (lin_cov L v) l).
  rewrite (form_flat (lin_cov L v) (opk v) (vterms L)); [|intros s r; now apply (lin_cov_values L dom)].
  apply (ops_psd dom v Hk Hp). intros p H. apply in_flat_map in H as (q & _ & H). apply in_map_iff in H as (t & <- & Ht). cbn [fst snd].
  now apply (vterms_dom L dom (snd q) W EI).
Qed.
Theorem C59_covariance_symmetric : forall L dom v, only_values L = true -> lwf L -> l_in L = (dom, []) -> kclass dom v -> (forall x y, v x y = v y x) ->
  forall s r, lin_cov L v s r = lin_cov L v r s.
Proof.
  intros L dom v HV W EI Hk Hs s r. rewrite !(lin_cov_values L dom) by assumption. rewrite sumR_swap. apply sumR_ext. intros q Hq. apply sumR_ext. intros p Hp.
  replace (opk v (snd p) (snd q)) with (opk v (snd q) (snd p)); [ring|]. unfold opk.
  rewrite <- (comm_args dom (fst (snd q)) (fst (snd p)) v); [|now apply (vterms_dom L dom r W EI)|now apply (vterms_dom L dom s W EI)|exact Hk].
  unfold in_arg. f_equal. extensionality x. f_equal. extensionality y. apply Hs.
Qed.

(** Operators of a Gaussian process with scalar values. *)
Lemma both_ksem P v : both P v = in_arg 0 (ksem P) (in_arg 1 (ksem P) v).
Proof. extensionality x. extensionality y. unfold both, in_arg. rewrite osem_ksem. f_equal. extensionality z. now rewrite osem_ksem. Qed.
Definition gp_like (dom : shape) (V : array -> R) (K : array -> array -> R) (q : randproc) : Prop :=
  exists m' v', q = RGP m' (KLeaf dom [] [] (v' : kern)) /\ fwf m' /\ fsm m' /\ (in_shape m', out_shape m') = (dom, []) /\
    (forall x, feval m' x [] = V x) /\ (forall x y, v' x y [] [] = K x y).
Lemma base_gp n P dom m (v : kern) q : wfo P -> o_in P = (dom, []) -> fwf m -> fsm m -> (in_shape m, out_shape m) = (dom, []) ->
  base_op n P (RGP m (KLeaf dom [] [] v)) = Ok q -> gp_like dom (fun x => osem P (feval m) x []) (both P (fun x y => v x y [] [])) q.
Proof.
  intros W EI Wm Sm Em H. unfold base_op in H. destruct (call n P m) as [m'|] eqn:Ec; [|discriminate]. cbn [bind] in H.
  rewrite (op_kern dom P W EI v 1) in H by now right. cbn [bind Nat.eqb] in H. rewrite (op_kern dom P W EI _ 0) in H by now left. cbn [bind Nat.eqb] in H.
  unfold mk_gp in H. destruct (_ && _); [|discriminate]. injection H as <-.
  destruct (call_sound n P m m' W Wm Sm) as (Wm' & Sm' & Em' & Vm'); [congruence|exact Ec|]. rewrite (scalar_op P dom W EI) in Em', Vm'.
  do 2 eexists. split; [reflexivity|]. split; [exact Wm'|]. split; [exact Sm'|]. split; [exact Em'|]. split.
  - intros x. apply Vm'. constructor.
  - intros x y. unfold both. rewrite !osem_ksem. f_equal. extensionality z. now rewrite !osem_ksem.
Qed.
Lemma op_cov_ext P v w : (forall x y, v x y = w x y) -> op_cov P v = op_cov P w.
Proof. intros H. f_equal. extensionality x. extensionality y. apply H. Qed.
Theorem C59_operator : forall n P dom m (v : array -> array -> index -> index -> R) q, wfo P -> o_in P = (dom, []) -> fwf m -> fsm m ->
  (in_shape m, out_shape m) = (dom, []) -> op_proc n P (RGP m (KLeaf dom [] [] (v : kern))) = Ok q ->
  exists m' v', q = RGP m' (KLeaf dom [] [] (v' : kern)) /\ fwf m' /\ fsm m' /\ (in_shape m', out_shape m') = (dom, []) /\
    (forall x, feval m' x [] = osem P (feval m) x []) /\ (forall x y, v' x y [] [] = op_cov P (fun x y => v x y [] []) x y).
Proof.
  intros n P dom m v q W. revert m v q.
  induction W as [d c|d Hd|s L W IH|L Ls HW IH HE|L W IH|L M Ls W IH W' IH' HE]; intros m v q EI Wm Sm Em H; cbn [op_proc] in H.
  - destruct (shape_eqb _ d); [|discriminate]. destruct (shape_eqb _ c); [|discriminate]. injection H as <-. do 2 eexists. split; [reflexivity|]. repeat (split; [assumption|]).
    split; reflexivity.
  - apply (base_gp n (ODiff d) dom m v q); auto. now constructor.
  - apply (base_gp n (OScaled s L) dom m v q); auto. now constructor.
  - apply (base_gp n (OSum (L :: Ls)) dom m v q); auto. now constructor.
  - cbn [fold_right bind] in H. exact (IH m v q EI Wm Sm Em H).
  - change (bind (op_proc n (OComp (M :: Ls)) (RGP m (KLeaf dom [] [] (v : kern)))) (op_proc n L) = Ok q) in H.
    destruct (op_proc n (OComp (M :: Ls)) _) as [q1|] eqn:E1; [|discriminate]. cbn [bind] in H.
    destruct (IH' m v q1 EI Wm Sm Em E1) as (m1 & v1 & -> & W1 & S1 & Em1 & V1 & K1).
    assert (EL : o_in L = (dom, [])) by (rewrite HE; exact (scalar_op (OComp (M :: Ls)) dom W' EI)).
    destruct (IH m1 v1 q EL W1 S1 Em1 H) as (m2 & v2 & -> & W2 & S2 & Em2 & V2 & K2).
    do 2 eexists. split; [reflexivity|]. repeat (split; [assumption|]). split.
    + intros x. rewrite V2. change (osem L (feval m1) x [] = osem L (osem (OComp (M :: Ls)) (feval m)) x []). rewrite !osem_ksem. f_equal. extensionality z. apply V1.
    + intros x y. rewrite K2. change (op_cov L (fun x y => v1 x y [] []) x y = op_cov L (op_cov (OComp (M :: Ls)) (fun x y => v x y [] [])) x y).
      exact (f_equal (fun h => h x y) (op_cov_ext L _ _ K1)).
Qed.
(** It returns a process if the operator can be applied to the mean. *)
Theorem C59_operator_total : forall n P dom m m' (v : array -> array -> index -> index -> R), wfo P -> o_in P = (dom, []) -> fwf m -> fsm m ->
  (in_shape m, out_shape m) = (dom, []) -> (forall Ps, P <> OComp Ps) -> call n P m = Ok m' -> exists q, op_proc n P (RGP m (KLeaf dom [] [] (v : kern))) = Ok q.
Proof.
  intros n P dom m m' v W EI Wm Sm Em NC H.
  assert (B : exists q, base_op n P (RGP m (KLeaf dom [] [] (v : kern))) = Ok q).
  { unfold base_op. rewrite H. cbn [bind]. rewrite (op_kern dom P W EI v 1) by now right. cbn [bind Nat.eqb]. rewrite (op_kern dom P W EI _ 0) by now left. cbn [bind].
    destruct (call_sound n P m m' W Wm Sm) as (_ & _ & Em' & _); [congruence|exact H|]. rewrite (scalar_op P dom W EI) in Em'. injection Em' as E1 E2.
    unfold mk_gp. cbn [k_in k_out0 k_out1]. rewrite E1, E2, !shape_eqb_refl. cbn [andb]. eexists. reflexivity. }
  destruct W as [d c|d Hd|s L W|L Ls HW HE|L W|L M Ls W W' HE]; try exact B; [|now destruct (NC [L])|now destruct (NC (L :: M :: Ls))].
  cbn [op_proc proc_in proc_out o_in] in *. injection EI as -> ->. injection Em as -> ->. rewrite !shape_eqb_refl. eauto.
Qed.
(** For kernels of the class of C56, a composition is the composition in both arguments. *)
Lemma op_class dom P v : wfo P -> o_in P = (dom, []) -> kclass dom v -> kclass dom (both P v).
Proof.
  intros W EI Hk. rewrite both_ksem. assert (O := wfo_opdom P dom W EI). apply (proj1 (lin_ksem dom 0 P O)). now apply (proj1 (lin_ksem dom 1 P O)).
Qed.
Theorem C59_composition : forall P dom v, wfo P -> o_in P = (dom, []) -> kclass dom v -> op_cov P v = both P v.
Proof.
  intros P dom v W. revert v. induction W as [d c|d Hd|s L W IH|L Ls HW IH HE|L W IH|L M Ls W IH W' IH' HE]; intros v EI Hk; try reflexivity.
  - cbn [op_cov fold_right]. rewrite IH by assumption. reflexivity.
  - change (op_cov L (op_cov (OComp (M :: Ls)) v) = both (OComp (L :: M :: Ls)) v).
    assert (EL : o_in L = (dom, [])) by (rewrite HE; exact (scalar_op (OComp (M :: Ls)) dom W' EI)).
    rewrite IH' by assumption. rewrite IH; [|exact EL|now apply op_class]. rewrite !both_ksem.
    assert (OL := wfo_opdom L dom W EL). assert (OR := wfo_opdom (OComp (M :: Ls)) dom W' EI).
    rewrite <- (comm_args dom (OComp (M :: Ls)) L); [reflexivity|exact OR|exact OL|]. now apply (proj1 (lin_ksem dom 1 _ OR)).
Qed.
(** The covariance function after an operator is again symmetric and positive
    semidefinite. *)
Theorem C59_operator_psd : forall P dom v, wfo P -> o_in P = (dom, []) -> kclass dom v -> (forall x y, v x y = v y x) -> psd_kernel (v : array -> array -> RF) ->
  psd_kernel (op_cov P v : array -> array -> RF) /\ forall x y, op_cov P v x y = op_cov P v y x.
Proof.
  intros P dom v W EI Hk Hs Hp. rewrite (C59_composition P dom v W EI Hk), both_ksem. assert (O := wfo_opdom P dom W EI). split.
  - intros l. change (0 <= form (in_arg 0 (ksem P) (in_arg 1 (ksem P) v)) l). rewrite (comm_args dom P P v O O Hk).
    pose proof (ops_psd dom v Hk Hp (map (fun p => (fst p, (P, snd p))) l)) as H.
    assert (E : form (opk v) (map (fun p => (fst p, (P, snd p))) l) = form (in_arg 1 (ksem P) (in_arg 0 (ksem P) v)) l).
    { unfold form. rewrite sumR_map. apply sumR_ext. intros p _. rewrite sumR_map. reflexivity. }
    rewrite <- E. apply H. intros p Hq. apply in_map_iff in Hq as (q & <- & _). exact O.
  - intros x y. transitivity (in_arg 1 (ksem P) (in_arg 0 (ksem P) v) x y); [exact (f_equal (fun h => h x y) (comm_args dom P P v O O Hk))|]. unfold in_arg. f_equal. extensionality z. f_equal. extensionality w. apply Hs.
Qed.

(** Deterministic processes. *)
Theorem C59_deterministic : forall n f, fwf f -> fsm f ->
  (forall L z, lwf L -> (in_shape f, out_shape f) = l_in L -> functl_proc n L (RDet f) = Ok z ->
     exists a, z = VConst a /\ nshape a = l_out L /\ forall r, valid_index (l_out L) r -> nat_ a r = lsem L (feval f) r) /\
  (forall L a, lwf L -> (in_shape f, out_shape f) = l_in L -> lcall n L f = Ok a -> exists b, functl_proc n L (RDet f) = Ok (VConst b)) /\
  (forall P q, wfo P -> (in_shape f, out_shape f) = o_in P -> op_proc n P (RDet f) = Ok q ->
     exists g, q = RDet g /\ fwf g /\ fsm g /\ (in_shape g, out_shape g) = o_out P /\
       forall x k, valid_index (snd (o_out P)) k -> feval g x k = osem P (feval f) x k) /\
  (forall X b, nshape X = b ++ in_shape f -> exists a, det_call f X = Ok (VConst a) /\ nshape a = b ++ out_shape f /\
     forall i k, valid_index b i -> valid_index (out_shape f) k -> nat_ a (i ++ k) = feval f (point_at X i) k) /\
  det_mean f = f.
Proof.
  intros n f Wf Sf. split; [|split; [|split; [|split]]].
  - assert (Plain : forall L z, lwf L -> (in_shape f, out_shape f) = l_in L -> bind (lcall n L f) (fun a => Ok (VConst a)) = Ok z ->
      exists a, z = VConst a /\ nshape a = l_out L /\ forall r, valid_index (l_out L) r -> nat_ a r = lsem L (feval f) r).
    { intros L z W E H. destruct (lcall n L f) as [a|] eqn:Ea; [|discriminate]. injection H as <-. exists a. split; [reflexivity|].
      now apply (lcall_sound n L f a). }
    intros L. induction L as [e|a b cod|m|d c o act|s L IH|Ls IH|A L op IH] using lfn_induction; intros z W E H; cbn [functl_proc functl_det] in H; try (now apply Plain).
    inversion W as [| | |? ? WL| |]; subst. destruct (functl_det n L f) as [y|] eqn:Ey; [|discriminate]. cbn [bind] in H.
    destruct (IH y WL E Ey) as (a & -> & Sa & Va). injection H as <-. exists (nd_scale s a). split; [reflexivity|]. split; [exact Sa|].
    intros r Hr. cbn [lsem l_out] in *. rewrite <- (Va r Hr). reflexivity.
  - intros L. induction L as [e|a b cod|m|d c o act|s L IH|Ls IH|A L op IH] using lfn_induction; intros v W E H; cbn [functl_proc functl_det]; try (rewrite H; cbn [bind]; eauto; fail).
    inversion W as [| | |? ? WL| |]; subst. destruct n as [|n]; [discriminate|]. cbn [lcall] in H. destruct (lcall n L f) as [w|] eqn:Ew; [|discriminate].
    destruct (IH w WL E (lcall_more n (S n) L f w (Nat.le_succ_diag_r n) Ew)) as [b Hb]. cbn [functl_proc] in Hb. rewrite Hb. cbn [bind]. eauto.
  - assert (Plain : forall P f q, wfo P -> fwf f -> fsm f -> (in_shape f, out_shape f) = o_in P -> base_op n P (RDet f) = Ok q -> exists g, q = RDet g /\ is_fn (o_out P) (osem P (feval f)) g).
    { intros P f0 q W W0 S0 E H. cbn [base_op] in H. destruct (call n P f0) as [g|] eqn:Eg; [|discriminate]. injection H as <-. exists g. split; [reflexivity|].
      now apply (call_sound n P f0 g). }
    intros P q W E H. enough (X : exists g, q = RDet g /\ is_fn (o_out P) (osem P (feval f)) g).
    { destruct X as (g & -> & X1 & X2 & X3 & X4). exists g. auto. }
    revert f Wf Sf q E H. induction W as [d c|d Hd|s L W IH|L Ls HW IH HE|L W IH|L M Ls W IH W' IH' HE]; intros f Wf Sf q E H; cbn [op_proc] in H.
    + destruct (shape_eqb _ d); [|discriminate]. destruct (shape_eqb _ c); [|discriminate]. injection H as <-. exists f. split; [reflexivity|]. cbn [o_out osem]. split; auto.
    + apply Plain; auto. now constructor.
    + destruct (op_proc n L (RDet f)); discriminate.
    + apply Plain; auto. now constructor.
    + cbn [fold_right bind] in H. exact (IH f Wf Sf q E H).
    + change (bind (op_proc n (OComp (M :: Ls)) (RDet f)) (op_proc n L) = Ok q) in H. destruct (op_proc n (OComp (M :: Ls)) _) as [q1|] eqn:E1; [|discriminate]. cbn [bind] in H.
      destruct (IH' f Wf Sf q1 E E1) as (g & -> & Wg & Sg & Eg & Vg). destruct (IH g Wg Sg q) as (h & -> & Wh & Sh & Eh & Vh); [rewrite HE; exact Eg|exact H|].
      exists h. split; [reflexivity|]. split; [exact Wh|]. split; [exact Sh|]. split; [exact Eh|]. intros x k Hk. rewrite (Vh x k Hk).
      change (osem (OComp (L :: M :: Ls)) (feval f)) with (osem L (osem (OComp (M :: Ls)) (feval f))). apply osem_ext; [exact W| |exact Hk].
      intros y j Hj. apply Vg. rewrite HE in Hj. exact Hj.
  - intros X b EX. unfold det_call, fbatch. rewrite (batch_shape_ok _ _ _ EX). cbn [bind]. eexists. split; [reflexivity|]. split; [reflexivity|].
    intros i k Hi Hk. cbn [nat_]. apply valid_index_length in Hi. rewrite firstn_app_l, skipn_app_l by exact Hi. reflexivity.
  - reflexivity.
Qed.
(** Samples of a deterministic process are copies of the values. *)
Theorem C59_deterministic_sample : forall f X b sz, nshape X = b ++ in_shape f ->
  exists a, det_sample f X sz = Ok a /\ nshape a = sz ++ b ++ out_shape f /\
    forall s i k, valid_index sz s -> valid_index b i -> valid_index (out_shape f) k -> nat_ a (s ++ i ++ k) = feval f (point_at X i) k.
Proof.
  intros f X b sz EX. unfold det_sample, det_call, fbatch. rewrite (batch_shape_ok _ _ _ EX). cbn [bind].
  assert (M : forall sh i, valid_index sh i -> map (fun '(i, n) => (i mod n)%nat) (combine i sh) = i).
  { intros sh i H. induction H as [|i n l sh L H IH]; [reflexivity|]. cbn [combine map]. rewrite IH, Nat.mod_small by exact L. reflexivity. }
  assert (V : forall i k, valid_index b i -> valid_index (out_shape f) k ->
     feval f (pt X (firstn (length b) (i ++ k))) (skipn (length b) (i ++ k)) = feval f (point_at X i) k).
  { intros i k Hi Hk. apply valid_index_length in Hi. rewrite firstn_app_l, skipn_app_l by exact Hi. reflexivity. }
  destruct sz as [|n sz].
  - eexists. split; [reflexivity|]. split; [reflexivity|]. intros s i k Hs Hi Hk. apply valid_index_nil in Hs as ->. cbn [app nat_]. now apply V.
  - eexists. split; [reflexivity|]. split; [reflexivity|]. intros s i k Hs Hi Hk. unfold tile. cbn [nat_ nshape]. apply valid_index_length in Hs. rewrite skipn_app_l by exact Hs.
    rewrite M; [now apply V|]. apply Forall2_app; assumption.
Qed.
(** Multiplying an operator by a number makes it fail on deterministic processes. *)
Theorem C59_scaled_deterministic_refuted : forall n s P f, (forall q, op_proc n (OScaled s P) (RDet f) <> Ok q) /\
  (forall q, op_proc n P (RDet f) = Ok q -> op_proc n (OScaled s P) (RDet f) = Err TypeError).
Proof. intros n s P f. cbn [op_proc]. split; [intros q; destruct (op_proc n P (RDet f)); discriminate|]. intros q ->. reflexivity. Qed.

(** Construction, conversion and the identity. *)
Theorem C59_construction :
  (forall m k, k_in k = in_shape m -> k_out0 k = out_shape m -> k_out1 k = out_shape m -> mk_gp m k = Ok (RGP m k)) /\
  (forall m k e, mk_gp m k = Err e -> e = ValueError) /\
  (forall m k p, mk_gp m k = Ok p -> p = RGP m k /\ k_in k = in_shape m /\ k_out0 k = out_shape m /\ k_out1 k = out_shape m /\ proc_in p = in_shape m /\ proc_out p = out_shape m) /\
  (forall mean C z, mk_normal mean C = Ok z <-> z = VNormal mean C /\ (length (nshape mean) <= 2)%nat /\ nrows C = size (nshape mean) /\ ncols C = size (nshape mean)) /\
  (forall mean C e, mk_normal mean C = Err e -> e = ValueError) /\
  (forall p, asrandproc (PyProc p) = Ok p) /\ (forall f, asrandproc (PyFn f) = Ok (RDet f)) /\ asrandproc PyOther = Err TypeError /\
  (forall f, proc_in (RDet f) = in_shape f /\ proc_out (RDet f) = out_shape f).
Proof.
  split; [|split; [|split; [|split; [|split; [|auto]]]]].
  - intros m k E0 E1 E2. unfold mk_gp. now rewrite E0, E1, E2, !shape_eqb_refl.
  - intros m k e. unfold mk_gp. destruct (_ && _); [discriminate|congruence].
  - intros m k p H. unfold mk_gp in H. destruct (shape_eqb_spec (in_shape m) (k_in k)) as [E0|]; [|discriminate]. destruct (shape_eqb_spec (out_shape m) (k_out0 k)) as [E1|]; [|discriminate].
    destruct (shape_eqb_spec (out_shape m) (k_out1 k)) as [E2|]; [|discriminate]. injection H as <-. repeat split; auto.
  - intros mean C z. unfold mk_normal. destruct (Nat.leb_spec (length (nshape mean)) 2); [|split; [discriminate|intros (_ & ? & _); lia]].
    destruct (Nat.eqb_spec (nrows C) (size (nshape mean))); [|split; [discriminate|intros (_ & _ & ? & _); lia]].
    destruct (Nat.eqb_spec (ncols C) (size (nshape mean))); [|split; [discriminate|intros (_ & _ & _ & ?); lia]]. cbn [andb].
    split; [intros [= <-]; auto|intros (-> & _); reflexivity].
  - intros mean C e. unfold mk_normal. destruct (_ && _); [discriminate|congruence].
Qed.
Theorem C59_identity : forall n dom cod p, op_proc n (OId dom cod) p = Ok p /\ proc_in p = dom /\ proc_out p = cod \/
  op_proc n (OId dom cod) p = Err ValueError /\ (proc_in p <> dom \/ proc_out p <> cod).
Proof.
  intros n dom cod p. cbn [op_proc]. destruct (shape_eqb_spec (proc_in p) dom); [|auto]. destruct (shape_eqb_spec (proc_out p) cod); auto.
Qed.

(** Which functionals give random variables: all those of [C59_total] except the ones whose
    value on the mean comes from quadrature alone, a Python float, which fail the
    assertion. *)
Lemma mapM_in {A B} (g : A -> result B) l vs : LfoModel.mapM g l = Ok vs -> forall x, In x l -> exists v, g x = Ok v.
Proof.
  revert vs. induction l as [|a l IH]; cbn [LfoModel.mapM]; intros vs H x Hx; [easy|].
  destruct (g a) as [v|] eqn:Ea; [|discriminate]. cbn [bind] in H. destruct (LfoModel.mapM g l) as [ws|] eqn:El; [|discriminate].
  destruct Hx as [<-|Hx]; [eauto|]. now apply (IH ws).
Qed.
Lemma mapM_err {A B} (g : A -> result B) l e : LfoModel.mapM g l = Err e -> exists x, In x l /\ g x = Err e.
Proof.
  induction l as [|a l IH]; cbn [LfoModel.mapM]; intros H; [discriminate|].
  destruct (g a) as [v|] eqn:Ea; cbn [bind] in H; [|exists a; split; [now left|congruence]].
  destruct (LfoModel.mapM g l) as [ws|] eqn:El; [discriminate|]. cbn [bind] in H. destruct IH as (x & Hx & Ex); [congruence|]. exists x. split; [now right|exact Ex].
Qed.
Lemma int_implemented n a b g : lcall n (LInt a b []) g <> Err NotImplementedError.
Proof.
  destruct n as [|n]; [discriminate|]. cbn [lcall]. unfold int_call.
  assert (Q : quad a b g <> Err NotImplementedError) by (unfold quad; destruct (negb _); [discriminate|]; destruct (negb _); discriminate).
  destruct g; try discriminate; rewrite shape_eqb_refl; cbn [negb]; unfold or_else; destruct (lbase_call _ _ _) as [|[]]; first [exact Q|discriminate].
Qed.
Lemma native_quad n L f v : no_operator L = true -> lcall n L f = Ok v -> native n L f = true <-> by_quadrature L f.
Proof.
  revert L f v. induction n as [|n IH]; intros L f v HO H; [discriminate|]. cbn [native lcall] in *. destruct L as [e|a b cod|e|dom cod out act|s M|Ls|A M op]; cbn [no_operator] in HO.
  - split; [discriminate|inversion 1].
  - destruct f as [i o g|i o w|i o|p|c f|gs]; try (split; [discriminate|inversion 1]).
    + split; [constructor|reflexivity].
    + exfalso. unfold int_call, lbase_call in H.
      assert (R : forall m u, lcall m (LInt a b cod) (FScaled c f) <> Ok u /\ lcall m (LInt a b cod) (FScaled c f) <> Err NotImplementedError).
      { induction m as [|m IHm]; intros u; [split; discriminate|]. cbn [lcall]. unfold int_call, lbase_call. destruct (IHm u) as [_ N]. unfold or_else.
        destruct (lcall m (LInt a b cod) (FScaled c f)) as [w|e] eqn:E; [now destruct (IHm w)|]. cbn [bind]. destruct e; try (split; discriminate). now destruct N. }
      destruct (lcall n (LInt a b cod) (FScaled c f)) as [w|e] eqn:E; [now destruct (R n w)|]. cbn [bind or_else] in H. destruct e; try discriminate. now destruct (R n v).
    + rewrite forallb_forall. assert (HG : forall g, In g gs -> exists w, lcall n (LInt a b cod) g = Ok w).
      { unfold int_call, lbase_call in H. destruct (LfoModel.mapM (lcall n (LInt a b cod)) gs) as [vs|e] eqn:E; [now apply (mapM_in _ _ _ E)|]. exfalso.
        destruct (mapM_err _ _ _ E) as (x & _ & Ex). cbn [bind or_else] in H. destruct e; try discriminate.
        destruct (shape_eqb_spec cod []) as [->|_]; [now apply int_implemented in Ex|discriminate]. }
      split.
      * intros F. constructor. intros g Hg. destruct (HG g Hg) as [w Ew]. apply (IH _ _ w); [exact HO|exact Ew|auto].
      * intros B g Hg. destruct (HG g Hg) as [w Ew]. inversion B; subst. apply (IH _ _ w); [exact HO|exact Ew|auto].
  - discriminate.
  - split; [discriminate|inversion 1].
  - split; [discriminate|inversion 1].
  - rewrite forallb_forall in HO |- *. destruct (LfoModel.mapM (fun M => lcall n M f) Ls) as [vs|] eqn:E; [|discriminate]. split.
    + intros F. constructor. intros M HM. destruct (mapM_in _ _ _ E M HM) as [w Ew]. apply (IH _ _ w); auto.
    + intros B M HM. destruct (mapM_in _ _ _ E M HM) as [w Ew]. inversion B; subst. apply (IH _ _ w); auto.
  - destruct op as [P|]; [destruct A; discriminate|]. cbn [bind] in H. destruct (lcall n M f) as [w|] eqn:E; [|discriminate]. destruct A as [A|].
    + split; [discriminate|inversion 1].
    + rewrite (IH M f w HO E). split; [now constructor|now inversion 1].
Qed.
Lemma native_values n L f : only_values L = true -> lwf L -> native n L f = false.
Proof.
  revert n f. induction L as [e|a b cod|e|d c o act|s L IH|Ls IH|A L op IH] using lfn_induction; intros n f HV W; destruct n as [|n]; try reflexivity; try discriminate.
  - inversion W; subst. cbn [native forallb]. cbn [only_values forallb] in HV. apply andb_prop in HV as [HV _]. rewrite (IH L); auto with datatypes.
  - inversion W; subst. destruct A as [A|]; [reflexivity|]. destruct op as [P|]; cbn [native only_values] in *.
    + apply andb_prop in HV as [HV _]. destruct (call n P f); [now apply IH|reflexivity].
    + now apply IH.
Qed.
Theorem C59_float : forall n L dom m (v : array -> array -> index -> index -> R) mu, lwf L -> l_in L = (dom, []) -> matrices_ok L = true ->
  fwf m -> fsm m -> (in_shape m, out_shape m) = (dom, []) -> lcall n L m = Ok mu -> (length (l_out L) <= 2)%nat ->
  (only_values L = true -> exists z, functl_gp n L m (KLeaf dom [] [] (v : kern)) = Ok z) /\
  (no_operator L = true -> ~ by_quadrature L m -> exists z, functl_gp n L m (KLeaf dom [] [] (v : kern)) = Ok z) /\
  (no_operator L = true -> by_quadrature L m -> functl_gp n L m (KLeaf dom [] [] (v : kern)) = Err AssertionError).
Proof.
  intros n L dom m v mu W EI HM Wm Sm Em Emu HL. split; [|split].
  - intros HV. apply (C59_total n L dom m v mu); auto. now apply native_values.
  - intros HO HB. apply (C59_total n L dom m v mu); auto. destruct (native n L m) eqn:E; [|reflexivity]. now apply (native_quad n L m mu HO Emu) in E.
  - intros HO HB. apply (native_quad n L m mu HO Emu) in HB. unfold functl_gp. rewrite Emu. cbn [bind].
    destruct (lk_good L dom v W EI HM) as (p & Ep & G & _ & HV). rewrite Ep. cbn [bind].
    destruct (lp_total L dom p _ _ W EI G) as (c & g & Ec & Sc); [auto|]. rewrite Ec. cbn [bind].
    destruct Sc as (_ & _ & _ & _ & C & EC & _). rewrite EC. cbn [bind]. now rewrite HB.
Qed.
Print Assumptions C59_float.
Example C59_float_example : by_quadrature (LSum [LInt 0 1 []; LInt 1 2 []]) (FSum [FOther [] [] (fun x _ => exp (x [])); FOther [] [] (fun x _ => cos (x []))]) /\
  ~ by_quadrature (LScaled 2 (LInt 0 1 [])) (FOther [] [] (fun x _ => exp (x []))) /\ ~ by_quadrature (LInt 0 1 []) (FSum [FOther [] [] (fun x _ => exp (x [])); FConst [] [] (fun _ => 1)]).
Proof.
  split; [|split].
  - constructor. intros M [<-|[<-|[]]]; (constructor; intros g [<-|[<-|[]]]; constructor).
  - inversion 1.
  - intros H. inversion H as [|? ? ? gs HG| |]; subst. specialize (HG (FConst [] [] (fun _ => 1)) ltac:(cbn; auto)). inversion HG.
Qed.
(** An operator with an identity among its parts does not act on cross-covariances (the
    identity returns nothing): no random variable comes out. *)
Theorem C59_identity_inside_refuted : forall n A M P dom m (v : array -> array -> index -> index -> R) z, lwf (LComp A M (Some P)) -> o_in P = (dom, []) ->
  matrices_ok (LComp A M (Some P)) = true -> identity_free P = false -> functl_gp n (LComp A M (Some P)) m (KLeaf dom [] [] (v : kern)) <> Ok z.
Proof.
  intros n A M P dom m v z W EI HM HI H. destruct (C59_accepted n _ dom m v z W EI HM H) as [X|X]; cbn [no_operator only_values] in X; destruct A; try discriminate.
  rewrite HI, andb_false_r in X. discriminate.
Qed.
Print Assumptions C59_identity_inside_refuted.

(** A functional whose value on the mean is a Python float (an integral computed by
    quadrature) makes the transform fail. *)
Theorem C59_float_refuted : forall n L dom m (v : array -> array -> index -> index -> R) z, lwf L -> l_in L = (dom, []) -> matrices_ok L = true ->
  native n L m = true -> functl_gp n L m (KLeaf dom [] [] (v : kern)) <> Ok z.
Proof.
  intros n L dom m v z W EI HM HN. unfold functl_gp. destruct (lcall n L m); [|discriminate]. cbn [bind].
  destruct (lk L _ 1); [|discriminate]. cbn [bind]. destruct (lp L _); [|discriminate]. cbn [bind]. destruct (clinop _); [|discriminate]. cbn [bind]. rewrite HN. discriminate.
Qed.
Theorem C59_integral_refuted : forall n a b g (v : array -> array -> index -> index -> R),
  functl_gp (S (S n)) (LInt a b []) (FOther [] [] g) (KLeaf [] [] [] (v : kern)) = Err AssertionError.
Proof.
  intros n a b g v. unfold functl_gp. cbn [lcall]. cbn. reflexivity.
Qed.
(** ** What operators make of cross-covariances *)
Lemma alt_fun d p : dtotal d -> no_rule p = true -> diff_alt d (OutPv p) = Ok OutFun.
Proof.
  intros T H. unfold diff_alt. destruct (is_partial d) eqn:PD.
  - destruct d; try discriminate; [reflexivity|destruct T].
  - destruct (to_sum_form d PD T) as (y0 & a0 & inn & -> & HI). cbn [bind map op_apply fold_left diff_nojax]. destruct (HI a0 y0 (or_introl eq_refl)) as (_ & W0 & O0).
    rewrite (no_rule_pv _ (DPartialNoJax a0) p) by (auto; now split). cbn [bind].
    assert (X : forall l, fold_left (fun acc M => bind acc (fun a => bind (op_apply diff_nojax M (OutPv p)) (out_add a))) l (Err NotImplementedError) = Err NotImplementedError) by (induction l; auto).
    match goal with |- or_else (fold_left ?f ?l ?r) _ = _ => change (or_else (fold_left (fun acc M => bind acc (fun a => bind (op_apply diff_nojax M (OutPv p)) (out_add a))) l r) (out_fallback d (OutPv p)) = Ok OutFun) end.
    rewrite X. destruct d; try discriminate; reflexivity.
Qed.
(** Differential operators have rules for scaled, summed and zero cross-covariances and for
    evaluations.  For the others they return, without an exception, a function that cannot be
    evaluated. *)
Theorem C52_derivative_refuted : forall d p, dtotal d -> no_rule p = true -> op_pv (ODiff d) p = Ok OutFun.
Proof. intros d p T H. unfold op_pv. cbn [op_apply diff_out]. rewrite no_rule_pv by auto using dtotal_wf. now apply alt_fun. Qed.
(** Of their multiples and of sums with them, AttributeError. *)
Theorem C52_derivative_inside_refuted : forall d p, dtotal d -> no_rule p = true ->
  (forall c, op_pv (ODiff d) (PScaled c p) = Err AttributeError) /\ (forall q, no_rule q = true -> op_pv (ODiff d) (PSum [p; q]) = Err AttributeError).
Proof.
  intros d p T H. assert (O := order0 d (dtotal_wf d T)). assert (E := fun p H => C52_derivative_refuted d p T H). unfold op_pv in *. cbn [op_apply diff_out] in *.
  assert (Ep := E p H). split; [intros c|intros q Hq; assert (Eq := E q Hq)]; unfold diff_pv in *; cbn [obj_pv mapR]; [rewrite Ep|rewrite Ep, Eq]; rewrite O; reflexivity.
Qed.
(** Of evaluations of argument 0, TypeError (C52_evaluation0_refuted). *)
Theorem C52_derivative_reversed_refuted : forall d k e, dtotal d -> op_pv (ODiff d) (PEval k e true) = Err TypeError.
Proof. intros d k e T. assert (O := order0 d (dtotal_wf d T)). unfold op_pv. cbn [op_apply diff_out]. unfold diff_pv. cbn [obj_pv]. rewrite O. reflexivity. Qed.
(** Partial derivatives of order zero return what they are given. *)
Theorem C52_order_zero : forall a p, mi_order a = 0%nat -> op_pv (ODiff (DPartial a)) p = Ok (OutPv p) /\ op_pv (ODiff (DPartialNoJax a)) p = Ok (OutPv p).
Proof.
  intros a p H. apply Nat.eqb_eq in H. unfold op_pv. cbn [op_apply diff_out]. unfold diff_pv.
  split; destruct p; cbn [obj_pv d_order0]; match goal with |- context [mi_order ?x] => change (mi_order x =? 0)%nat with (mi_order a =? 0)%nat end; now rewrite H.
Qed.
(** Zero stays zero, also under sums and compositions. *)
Theorem C52_zero : forall d i o rv rev, dtotal d -> op_pv (ODiff d) (PZero i o rv rev) = Ok (OutPv (PZero (d_dom d) [] rv rev)).
Proof. intros d i o rv rev T. assert (O := order0 d (dtotal_wf d T)). unfold op_pv. cbn [op_apply diff_out]. unfold diff_pv. cbn [obj_pv]. rewrite O. reflexivity. Qed.
(** The identity never returns a cross-covariance: nothing for evaluations of argument 1 and
    zero, NotImplementedError for classes without rules, AttributeError for multiples. *)
Theorem C52_identity_refuted : forall dom cod,
  (forall p q, op_pv (OId dom cod) p <> Ok (OutPv q)) /\
  (forall i o rv rev, op_pv (OId dom cod) (PZero i o rv rev) = Ok OutNone) /\
  (forall v e, op_pv (OId dom []) (PEval (KLeaf dom [] [] (v : kern)) e false) = Ok OutNone) /\
  (forall p, no_rule p = true -> op_pv (OId dom cod) p = Err NotImplementedError) /\
  (forall c v e, op_pv (OId dom []) (PScaled c (PEval (KLeaf dom [] [] (v : kern)) e false)) = Err AttributeError).
Proof.
  intros dom cod. split; [|split; [|split; [|split]]].
  - intros p. apply npv_id. - reflexivity.
  - intros v e. unfold op_pv. cbn [op_apply id_out obj_pv]. unfold validate. cbn [k_in k_out0 Nat.eqb orb negb]. now rewrite !shape_eqb_refl.
  - intros p H. destruct p; try discriminate; reflexivity.
  - intros c v e. unfold op_pv. cbn [op_apply id_out obj_pv]. unfold validate. cbn [k_in k_out0 Nat.eqb orb negb]. rewrite !shape_eqb_refl. reflexivity.
Qed.
(** The identity is compared with the inputs and the outputs of the first argument, the one that is
    not evaluated. *)
Theorem C52_identity_argument : forall dom cod (k : kfun RF) e,
  (k_in k = dom /\ k_out0 k = cod -> op_pv (OId dom cod) (PEval k e false) = Ok OutNone) /\
  (k_in k <> dom \/ k_out0 k <> cod -> op_pv (OId dom cod) (PEval k e false) = Err ValueError).
Proof.
  intros dom cod k e. unfold op_pv. cbn [op_apply id_out obj_pv]. unfold validate. cbn [Nat.eqb orb negb]. split.
  - intros [<- <-]. now rewrite !shape_eqb_refl.
  - destruct (shape_eqb_spec (k_in k) dom); cbn [negb bind]; [|reflexivity]. intros [N|N]; [contradiction|].
    destruct (shape_eqb_spec (k_out0 k) cod); [contradiction|reflexivity].
Qed.
(** What follows from that for scaled, sum and composite operators applied to an evaluation
    (which has rules) and to a class without rules. *)
Theorem C52_composed_refuted : forall d s dom (v : array -> array -> index -> index -> R) e p, dtotal d -> d_dom d = dom -> no_rule p = true ->
  let I := OId dom [] in let D := ODiff d in let k := PEval (KLeaf dom [] [] (v : kern)) e false in
  op_pv (OScaled s I) k = Err TypeError /\ op_pv (OSum [I; D]) k = Err TypeError /\ op_pv (OSum [D; I]) k = Err TypeError /\
  op_pv (OComp [D; I]) k = (match d with DLap _ _ _ => Err TypeError | _ => Ok OutFun end) /\ op_pv (OComp [I; I]) k = Err NotImplementedError /\
  op_pv (OScaled s D) p = Ok OutFun /\ op_pv (OSum [D; D]) p = Ok OutFun /\ op_pv (OComp [I; D]) p = Ok OutFun /\
  forall a, mi_order a = 0%nat -> op_pv (OSum [D; ODiff (DPartial a)]) p = Err AttributeError /\ op_pv (OSum [ODiff (DPartial a); D]) p = Err TypeError.
Proof.
  intros d s dom v e p T ED H I D k. assert (W := dtotal_wf d T). assert (O := order0 d W).
  assert (EI : op_apply diff_out I (OutPv k) = Ok OutNone).
  { cbn [op_apply I k id_out obj_pv]. unfold validate. cbn [k_in k_out0 Nat.eqb orb negb]. now rewrite !shape_eqb_refl. }
  assert (EK : exists q, op_apply diff_out D (OutPv k) = Ok (OutPv q)).
  { assert (HK := op_kern dom (ODiff d) (wo_diff d W) (f_equal (fun s => (s, [])) ED) (v : kern) 0 (or_introl eq_refl)).
    subst D k. cbn [op_apply diff_out]. unfold diff_pv. cbn [obj_pv]. rewrite O, HK. cbn. eauto. }
  destruct EK as [q EK]. assert (EP : op_apply diff_out D (OutPv p) = Ok OutFun) by exact (C52_derivative_refuted d p T H).
  assert (EN : diff_out d OutNone = match d with DLap _ _ _ => Err TypeError | _ => Ok OutFun end).
  { cbn [diff_out]. rewrite O. unfold diff_alt. destruct (is_partial d) eqn:PD; [destruct d; try discriminate; [reflexivity|destruct T]|].
    destruct (to_sum_form d PD T) as (y0 & a0 & inn & -> & HI). destruct (HI a0 y0 (or_introl eq_refl)) as (_ & W0 & O0). apply Nat.eqb_neq in O0.
    cbn [bind map op_apply fold_left diff_nojax d_order0]. rewrite O0. cbn [bind].
    assert (X : forall l, fold_left (fun acc M => bind acc (fun a => bind (op_apply diff_nojax M OutNone) (out_add a))) l (Err NotImplementedError) = Err NotImplementedError) by (induction l; auto).
    match goal with |- or_else (fold_left ?f ?l ?r) ?b = ?c => change (or_else (fold_left (fun acc M => bind acc (fun a => bind (op_apply diff_nojax M OutNone) (out_add a))) l r) b = c) end.
    rewrite X. destruct d; try discriminate; reflexivity. }
  assert (EZ : forall a, mi_order a = 0%nat -> op_apply diff_out (ODiff (DPartial a)) (OutPv p) = Ok (OutPv p)) by (intros a Ha; exact (proj1 (C52_order_zero a p Ha))).
  unfold op_pv. repeat split.
  - cbn [op_apply]. fold (op_apply diff_out I (OutPv k)). now rewrite EI.
  - change (bind (op_apply diff_out I (OutPv k)) (fun a => bind (op_apply diff_out D (OutPv k)) (out_add a)) = Err TypeError). now rewrite EI, EK.
  - change (bind (op_apply diff_out D (OutPv k)) (fun a => bind (op_apply diff_out I (OutPv k)) (out_add a)) = Err TypeError). now rewrite EI, EK.
  - change (bind (op_apply diff_out I (OutPv k)) (diff_out d) = match d with DLap _ _ _ => Err TypeError | _ => Ok OutFun end). rewrite EI. exact EN.
  - change (bind (op_apply diff_out I (OutPv k)) (op_apply diff_out I) = Err NotImplementedError). now rewrite EI.
  - change (bind (op_apply diff_out D (OutPv p)) (out_scale s) = Ok OutFun). now rewrite EP.
  - change (bind (op_apply diff_out D (OutPv p)) (fun a => bind (op_apply diff_out D (OutPv p)) (out_add a)) = Ok OutFun). now rewrite EP.
  - change (bind (op_apply diff_out D (OutPv p)) (op_apply diff_out I) = Ok OutFun). now rewrite EP.
  - change (bind (op_apply diff_out D (OutPv p)) (fun b => bind (op_apply diff_out (ODiff (DPartial a)) (OutPv p)) (out_add b)) = Err AttributeError). now rewrite EP, EZ.
  - change (bind (op_apply diff_out (ODiff (DPartial a)) (OutPv p)) (fun b => bind (op_apply diff_out D (OutPv p)) (out_add b)) = Err TypeError). now rewrite EP, EZ.
Qed.
(** Integrals, and functionals with their own rules, after an operator: no random variable,
    and TypeError for differential operators. *)
Theorem C59_integral_of_operator_refuted : forall n M P dom m (v : array -> array -> index -> index -> R) mu,
  (exists a b, M = LInt a b []) \/ (exists out act, M = LAct dom [] out act) -> lwf (LComp None M (Some P)) -> o_in P = (dom, []) ->
  lcall n (LComp None M (Some P)) m = Ok mu -> (forall z, functl_gp n (LComp None M (Some P)) m (KLeaf dom [] [] (v : kern)) <> Ok z) /\
  forall d, P = ODiff d -> dtotal d -> functl_gp n (LComp None M (Some P)) m (KLeaf dom [] [] (v : kern)) = Err TypeError.
Proof.
  intros n M P dom m v mu HM W EI Emu. split.
  - intros z H. apply (C59_accepted n _ dom m v z W EI) in H; [|destruct HM as [(a & b & ->)|(out & act & ->)]; reflexivity].
    destruct HM as [(a & b & ->)|(out & act & ->)]; destruct H as [H|H]; discriminate.
  - intros d -> T. unfold functl_gp. rewrite Emu. cbn [bind].
    inversion W as [| | | | |? ? ? WM Hop _]; subst. destruct (Hop _ eq_refl) as [WP EP]. rewrite (scalar_op _ dom WP EI) in EP.
    cbn [lk l_in]. rewrite EI. cbn [fst snd].
    assert (EV : validate dom [] (KLeaf dom [] [] (v : kern)) 1 = Ok tt) by (unfold validate; cbn [k_in k_out0 k_out1 Nat.eqb orb negb]; now rewrite !shape_eqb_refl).
    rewrite EV. cbn [bind]. rewrite (op_kern dom (ODiff d) WP EI v 1) by now right. cbn [bind Nat.eqb].
    assert (X : exists p, lk M (KLeaf dom [] [] ((fun (x y : array) o q => osem (ODiff d) (fun z r => v x z o r) y q) : kern)) 1 = Ok p /\ no_rule p = true).
    { destruct HM as [(a & b & ->)|(out & act & ->)]; cbn [lk].
      - cbn [l_in] in EP. injection EP as ->. rewrite shape_eqb_refl. eexists. split; [reflexivity|]. reflexivity.
      - cbn [f_kern f_dom f_cod lf_dom lf_cod lf_kern]. unfold validate. cbn [k_in k_out0 k_out1 Nat.eqb orb negb]. rewrite !shape_eqb_refl. cbn.
        eexists. split; [reflexivity|]. reflexivity. }
    destruct X as (p & Ep & Eq). match goal with |- context [lk M ?k 1] => replace (lk M k 1) with (Ok p) by (symmetry; exact Ep) end. cbn [bind lp].
    now rewrite (C52_derivative_refuted d p T Eq).
Qed.
(** The identity before any functional: no random variable, and NotImplementedError for point
    evaluations, integrals and functionals with their own rules. *)
Theorem C59_identity_before_refuted : forall n M dom m (v : array -> array -> index -> index -> R) mu, matrices_ok M = true ->
  lwf (LComp None M (Some (OId dom []))) -> lcall n (LComp None M (Some (OId dom []))) m = Ok mu ->
  (forall z, functl_gp n (LComp None M (Some (OId dom []))) m (KLeaf dom [] [] (v : kern)) <> Ok z) /\
  ((exists e, M = LEv e) \/ (exists a b, M = LInt a b []) \/ (exists out act, M = LAct dom [] out act) ->
   functl_gp n (LComp None M (Some (OId dom []))) m (KLeaf dom [] [] (v : kern)) = Err NotImplementedError).
Proof.
  intros n M dom m v mu HM W Emu. split; [intros z; now apply (C59_identity_inside_refuted n None M (OId dom []) dom)|]. intros HC.
  unfold functl_gp. rewrite Emu. cbn [bind].
  inversion W as [| | | | |? ? ? WM Hop _]; subst. destruct (Hop _ eq_refl) as [WP EP]. cbn [o_out] in EP. cbn [lk l_in o_in fst snd].
  assert (EV : forall v' : kern, validate dom [] (KLeaf dom [] [] v') 1 = Ok tt) by (intros v'; unfold validate; cbn [k_in k_out0 k_out1 Nat.eqb orb negb]; now rewrite !shape_eqb_refl).
  rewrite EV. cbn [bind]. rewrite (op_kern dom (OId dom []) WP eq_refl v 1) by now right. cbn [bind Nat.eqb].
  destruct (C52_identity_refuted dom []) as (_ & _ & I1 & I2 & _).
  assert (X : exists p, lk M (KLeaf dom [] [] ((fun (x y : array) o q => osem (OId dom []) (fun z r => v x z o r) y q) : kern)) 1 = Ok p /\
     (op_pv (OId dom []) p = Ok OutNone \/ op_pv (OId dom []) p = Err NotImplementedError)).
  { destruct HC as [(e & ->)|[(a & b & ->)|(out & act & ->)]]; cbn [lk l_in f_kern] in *.
    - injection EP as <- <-. rewrite EV. cbn [bind Nat.eqb]. eexists. split; [reflexivity|]. left. apply I1.
    - injection EP as ->. rewrite shape_eqb_refl. eexists. split; [reflexivity|]. right. apply I2. reflexivity.
    - cbn [f_kern f_dom f_cod lf_dom lf_cod lf_kern]. rewrite EV. cbn [bind Nat.eqb]. eexists. split; [reflexivity|]. right. apply I2. reflexivity. }
  destruct X as (p & Ep & Eq). match goal with |- context [lk M ?k 1] => replace (lk M k 1) with (Ok p) by (symmetry; exact Ep) end. cbn [bind lp].
  destruct Eq as [-> | ->]; reflexivity.
Qed.
(** A matrix applied to point evaluations: non-square matrices fail, square ones give
    A A K instead of A K A^T. *)
Theorem C59_matrix_of_values_refuted : forall n e A dom m (v : array -> array -> index -> index -> R) mu,
  lwf (LComp (Some A) (LEv e) None) -> ev_dom e = dom -> ev_cod e = [] -> fwf m -> fsm m -> (in_shape m, out_shape m) = (dom, []) ->
  lcall n (LComp (Some A) (LEv e) None) m = Ok mu ->
  (nrows A <> ncols A -> functl_gp n (LComp (Some A) (LEv e) None) m (KLeaf dom [] [] (v : kern)) = Err ValueError) /\
  (nrows A = ncols A -> exists mean C, functl_gp n (LComp (Some A) (LEv e) None) m (KLeaf dom [] [] (v : kern)) = Ok (VNormal mean C) /\
     nrows C = nrows A /\ ncols C = nrows A /\
     forall i j, (i < nrows A)%nat -> (j < nrows A)%nat -> entry C i j =
       total (map (fun k => entry A i k * total (map (fun l => entry A k l * v (point_at (ev_X e) [l]) (point_at (ev_X e) [j]) [] []) (seq 0 (ncols A)))) (seq 0 (ncols A)))).
Proof.
  intros n e A dom m v mu W ED EC Wm Sm Em Emu. inversion W as [| | | | |? ? ? WE _ HA]; subst. inversion WE as [? HX| | | | |]; subst.
  assert (HB := HA A eq_refl). cbn [l_out] in HB. rewrite (ev_out_nil e EC) in HB.
  destruct (lcall_sound n _ m mu W Wm Sm) as [Smu _]; [cbn [l_in]; now rewrite EC|exact Emu|]. cbn [l_out] in Smu.
  unfold functl_gp. rewrite Emu. cbn [bind]. cbn [lk l_in fst snd]. rewrite EC.
  assert (EV : validate (ev_dom e) [] (KLeaf (ev_dom e) [] [] (v : kern)) 1 = Ok tt) by (unfold validate; cbn [k_in k_out0 k_out1 Nat.eqb orb negb]; now rewrite !shape_eqb_refl).
  rewrite EV. cbn [bind f_kern]. rewrite EC, EV. cbn [bind Nat.eqb].
  assert (EP : mk_plinop A (PEval (KLeaf (ev_dom e) [] [] (v : kern)) e false) = Ok (PLinOp A (PEval (KLeaf (ev_dom e) [] [] (v : kern)) e false))).
  { unfold mk_plinop. cbn [p_rv]. rewrite (ev_out_nil e EC), HB. cbn [length Nat.eqb andb]. now rewrite shape_eqb_refl. }
  rewrite EP. cbn [bind lp f_pv]. cbn [p_rev p_rv cov_shapes]. rewrite (ev_out_nil e EC), HB.
  unfold p_linop, p_public. cbn [p_in k_in]. rewrite (batch_shape_ok _ _ _ HX). cbn [bind p_own_linop].
  destruct (leaf_linop (ev_dom e) [] [] (v : kern) (ev_X e) (Some (ev_X e)) (ev_batch e) (ev_batch e)) as (K & EK & RK & CK & VK); [now split|]. rewrite EK. cbn [bind].
  cbn [app] in RK, CK, VK. rewrite HB in RK, CK, VK. cbn [size fold_right] in RK, CK. rewrite Nat.mul_1_r in RK, CK.
  unfold mat_mul. rewrite RK, Nat.eqb_refl. set (AK := mkmat _ _ _). cbn [bind].
  assert (EL : nrows A = ncols A -> matrix_shows AK [ncols A] [nrows A] (fun s r => total (map (fun l => entry A (hd 0%nat s) l * v (point_at (ev_X e) [l]) (point_at (ev_X e) r) [] []) (seq 0 (ncols A))) : RF)).
  { intros EA. split; [|split].
    - cbn [AK nrows size fold_right]. lia.
    - cbn [AK ncols size fold_right]. lia.
    - intros s r Hs Hr. apply valid1_inv in Hs as (k & -> & Hk). apply valid1_inv in Hr as (j & -> & Hj). rewrite EA in Hj. cbn [AK entry hd].
      replace (ravel [ncols A] [k]) with k by (cbn; lia). replace (ravel [nrows A] [j]) with j by (cbn; lia).
      unfold fsum, total. f_equal. apply map_ext_in. intros l Hl. apply in_seq in Hl. cbn [fmul RF]. f_equal.
      specialize (VK [l] [j] [] [] (valid1 _ _ (proj2 Hl)) (valid1 _ _ Hj) (Forall2_nil _) (Forall2_nil _)). cbn [app] in VK.
      replace (ravel [ncols A] [l]) with l in VK by (cbn; lia). replace (ravel [ncols A] [j]) with j in VK by (cbn; lia). exact VK. }
  split.
  - intros NE. unfold linop_cov. assert (HF : (nrows AK =? fold_left Nat.mul [ncols A] 1)%nat = false) by (apply Nat.eqb_neq; cbn [AK nrows fold_left]; lia).
    rewrite HF. reflexivity.
  - intros EA. destruct (linop_cov_shows AK [ncols A] [nrows A] _ (EL EA)) as (c & -> & Sc). cbn [bind].
    destruct (cov_lin_first A c (ncols A) [nrows A] _ Sc eq_refl) as (d & -> & Sd). cbn [bind].
    destruct Sd as (_ & _ & _ & _ & C & -> & R1 & R2 & VC). cbn [bind]. replace (native n (LComp (Some A) (LEv e) None) m) with false by (destruct n; reflexivity).
    rewrite Smu. change (shape_eqb [nrows A] []) with false. cbn [bind]. exists mu, C.
    cbn [size fold_right] in R1, R2. rewrite Nat.mul_1_r in R1, R2. split; [|split; [exact R1|split; [exact R2|]]].
    + unfold mk_normal. rewrite Smu, R1, R2. cbn [size fold_right length]. rewrite Nat.mul_1_r, Nat.eqb_refl. reflexivity.
    + intros i j Hi Hj. specialize (VC [i] [j] (valid1 _ _ Hi) (valid1 _ _ Hj)). replace (ravel [nrows A] [i]) with i in VC by (cbn; lia). replace (ravel [nrows A] [j]) with j in VC by (cbn; lia).
      rewrite VC. reflexivity.
Qed.

(** Non-vacuity: the derivative at the point 2 of the process with mean 1 + 3 x^2 and the
    squared exponential covariance function. *)
Definition sq : array -> array -> R := expquad_fun [] (fun _ => 1).
Definition sq_kern : array -> array -> index -> index -> R := fun x y _ _ => sq x y.
Definition ex_D : lfn := LComp None (LEv (@mkevalf RF false [] [] ex_pt2)) (Some (ODiff ex_d)).
Lemma sq_val x y : sq x y = exp (- / 2 * ((x [] - y []) * (x [] - y []))).
Proof. unfold sq, expquad_fun. cbn. f_equal. field. Qed.
Lemma ex_D_wf : lwf ex_D.
Proof. constructor; [now constructor| |discriminate]. intros M [= <-]. split; [constructor; split; [reflexivity|cbn; lia]|reflexivity]. Qed.
Lemma pd_iter (g : array -> R) x : dsem ex_d g x = pd [] g x.
Proof. cbn [ex_d dsem]. now rewrite pderiv_unit by constructor. Qed.
Example C59_derivative_example : exists n mean C, functl_gp n ex_D ex_f (KLeaf [] [] [] (sq_kern : kern)) = Ok (VNormal mean C) /\
  nshape mean = [1%nat] /\ nat_ mean [0%nat] = 12 /\ nrows C = 1%nat /\ ncols C = 1%nat /\ entry C 0 0 = 1.
Proof.
  assert (Wd : dwf ex_d) by (split; [reflexivity|cbn; lia]).
  assert (Wf : fwf ex_f) by (apply wf_poly; cbn; try discriminate; auto).
  assert (Sf : fsm ex_f) by (intros i g [[=]|[]]).
  destruct (C44_total ex_D ex_f) as (n & v & Hv & _); auto using ex_D_wf.
  - apply lt_comp_plain; [apply lt_direct, di_ev|]. apply pl_diff. exact Wd.
  - now apply unscaled_one.
  - assert (HN : native n ex_D ex_f = false).
    { destruct n as [|n]; [reflexivity|]. cbn [native ex_D]. destruct (call n (ODiff ex_d) ex_f); [|reflexivity]. now destruct n. }
    destruct (C59_total n ex_D [] ex_f sq_kern v ex_D_wf eq_refl eq_refl Wf Sf eq_refl (or_intror eq_refl) Hv HN) as [z Hz]; [cbn; lia|].
    destruct (C59_functional n ex_D [] ex_f sq_kern z ex_D_wf eq_refl eq_refl Wf Sf eq_refl (or_introl eq_refl) Hz) as (mean & C & -> & Sm & Vm & R1 & R2 & VC).
    exists n, mean, C. split; [exact Hz|]. split; [exact Sm|]. split; [|split; [exact R1|split; [exact R2|]]].
    + change (nat_ mean (mean_at (l_out ex_D) [0%nat]) = 12). rewrite Vm by (apply valid1; cbn; lia). unfold lin_mean, weigh. cbn [ex_D lterms map fst snd pre_op]. cbn [osem]. rewrite pd_iter.
      rewrite (functional_extensionality (fun y => feval ex_f y []) (fun y => 1 + 3 * (y [] * y [])) ex_f_eval).
      assert (D : pd [] (fun y : array => 1 + 3 * (y [] * y [])) (point_at (ev_X (@mkevalf RF false [] [] ex_pt2)) [0%nat]) = 12).
      { apply pd_eq. cbn. auto_derive; [exact I|]. ring. }
      cbn [map]. rewrite D. change (1 * 12 + 0 = 12). ring.
    + specialize (VC [0%nat] [0%nat] (valid1 _ _ (Nat.lt_0_succ 0)) (valid1 _ _ (Nat.lt_0_succ 0))). change (entry C 0 0 = lin_cov ex_D (fun x y => sq_kern x y [] []) [0%nat] [0%nat]) in VC. rewrite VC. clear VC.
      unfold lin_cov, weigh. cbn [ex_D lterms map fst snd pre_op osem]. unfold total. cbn [fold_right]. rewrite pd_iter.
      assert (D1 : forall x p, pd [] (fun y => sq_kern x y [] []) p = (x [] - p []) * exp (- / 2 * ((x [] - p []) * (x [] - p [])))).
      { intros x p. rewrite (functional_extensionality (fun y => sq_kern x y [] []) (fun y => exp (- / 2 * ((x [] - y []) * (x [] - y [])))) (sq_val x)).
        apply pd_eq. cbn. auto_derive; [exact I|]. unfold Rminus. rewrite Rmult_0_l, Rplus_0_r. field. }
      set (p := point_at _ _).
      rewrite (functional_extensionality (fun y => dsem ex_d (fun y0 => sq_kern y y0 [] []) p) (fun x => (x [] - 2) * exp (- / 2 * ((x [] - 2) * (x [] - 2))))).
      * assert (D : pd [] (fun x : array => (x [] - 2) * exp (- / 2 * ((x [] - 2) * (x [] - 2)))) p = 1).
        { apply pd_eq. cbn. auto_derive; [exact I|]. match goal with |- context [exp ?a] => replace (exp a) with 1 end; [ring|]. symmetry. rewrite <- exp_0. f_equal. ring. }
        rewrite D. change (1 * (1 * 1 + 0) + 0 = 1). ring.
      * intros x. rewrite pd_iter, D1. unfold p. cbn. ring.
Qed.

Lemma sq_class : kclass [] sq.
Proof. assert (P : PsdSpec.kpos [] (KernelProps.KExp (KernelModel.ExpQuad [] (fun _ => 1)))) by (now constructor). exact (proj1 (kpos_class _ _ P)). Qed.
Example C59_psd_example : psd_kernel (lin_cov ex_D sq : index -> index -> RF) /\ psd_kernel (op_cov (ODiff ex_d) sq : array -> array -> RF) /\ op_cov (OComp [ODiff ex_d; ODiff ex_d]) sq = both (OComp [ODiff ex_d; ODiff ex_d]) sq.
Proof.
  assert (Wd : wfo (ODiff ex_d)) by (constructor; split; [reflexivity|cbn; lia]). split; [|split].
  - apply (C59_covariance_psd ex_D []); auto using ex_D_wf, sq_class. apply expquad_psd.
  - apply (C59_operator_psd (ODiff ex_d) []); auto using sq_class; [|apply expquad_psd]. intros x y. rewrite !sq_val. f_equal. ring.
  - apply (C59_composition _ []); auto using sq_class. repeat (constructor; auto).
Qed.
(** The matrix [[1, 1], [0, 1]] applied to the values at 0 and 1 of a process with
    uncorrelated values there. *)
Definition tri : array -> array -> index -> index -> R := fun x y _ _ => 1 - Rabs (x [] - y []).
Definition ex_B : @mat RF := @mkmat RF 2 2 (fun i j => match i, j with 1%nat, 0%nat => 0 | _, _ => 1 end).
Definition ex_BV : lfn := LComp (Some ex_B) (LEv (@mkevalf RF true [] [] ex_pts)) None.
Example C59_matrix_example : exists n mean C, functl_gp n ex_BV ex_f (KLeaf [] [] [] (tri : kern)) = Ok (VNormal mean C) /\ entry C 0 1 = 2 /\ entry C 1 0 = 0 /\ lin_cov ex_BV (fun x y => tri x y [] []) [0%nat] [1%nat] = 1 /\ lin_cov ex_BV (fun x y => tri x y [] []) [1%nat] [0%nat] = 1.
Proof.
  assert (Wf : fwf ex_f) by (apply wf_poly; cbn; try discriminate; auto).
  assert (Sf : fsm ex_f) by (intros i g [[=]|[]]).
  assert (W : lwf ex_BV) by (constructor; [now constructor|discriminate|intros B [= <-]; reflexivity]).
  destruct (C44_total ex_BV ex_f) as (n & v & Hv & _); auto; [apply lt_direct, di_comp, di_ev|now apply unscaled_one|].
  destruct (C59_matrix_of_values_refuted n _ ex_B [] ex_f tri v W eq_refl eq_refl Wf Sf eq_refl Hv) as [_ H]. destruct (H eq_refl) as (mean & C & E & _ & _ & V).
  assert (A0 : Rabs (0 - 0) = 0) by (replace (0 - 0) with 0 by ring; apply Rabs_R0). assert (A1 : Rabs (1 - 1) = 0) by (replace (1 - 1) with 0 by ring; apply Rabs_R0).
  assert (A2 : Rabs (0 - 1) = 1) by (rewrite Rabs_left; lra). assert (A3 : Rabs (1 - 0) = 1) by (rewrite Rabs_right; lra).
  exists n, mean, C. split; [exact E|]. split; [|split; [|split]].
  - rewrite V by (cbn; lia). unfold tri, point_at, total. cbn. rewrite ?A0, ?A1, ?A2, ?A3. change (@eq R (1 * (1 * (1 - 1) + (1 * (1 - 0) + 0)) + (1 * (0 * (1 - 1) + (1 * (1 - 0) + 0)) + 0)) 2). ring.
  - rewrite V by (cbn; lia). unfold tri, point_at, total. cbn. rewrite ?A0, ?A1, ?A2, ?A3. change (@eq R (0 * (1 * (1 - 0) + (1 * (1 - 1) + 0)) + (1 * (0 * (1 - 0) + (1 * (1 - 1) + 0)) + 0)) 0). ring.
  - unfold lin_cov, weigh, total, tri, point_at. cbn. rewrite ?A0, ?A1, ?A2, ?A3. ring.
  - unfold lin_cov, weigh, total, tri, point_at. cbn. rewrite ?A0, ?A1, ?A2, ?A3. ring.
Qed.
Print Assumptions C59_functional.
Print Assumptions C59_expression.
Print Assumptions C59_total.
Print Assumptions C59_accepted.
Print Assumptions C59_smooth_sections.
Print Assumptions C52_derivative_refuted.
Print Assumptions C52_derivative_inside_refuted.
Print Assumptions C52_derivative_reversed_refuted.
Print Assumptions C52_order_zero.
Print Assumptions C52_zero.
Print Assumptions C52_identity_refuted.
Print Assumptions C52_composed_refuted.
Print Assumptions C59_covariance_psd.
Print Assumptions C59_covariance_symmetric.
Print Assumptions C59_operator.
Print Assumptions C59_operator_total.
Print Assumptions C59_composition.
Print Assumptions C59_operator_psd.
Print Assumptions C59_deterministic.
Print Assumptions C59_scaled_deterministic_refuted.
Print Assumptions C59_construction.
Print Assumptions C59_identity.
Print Assumptions C59_float_refuted.
Print Assumptions C59_integral_refuted.
Print Assumptions C59_integral_of_operator_refuted.
Print Assumptions C59_identity_before_refuted.
Print Assumptions C59_matrix_of_values_refuted.
