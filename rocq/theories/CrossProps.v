(** C30-C32, C51, C52: covariance functions with several outputs, cross-covariances,
    functionals and operators applied to both. *)
From Coq Require Import List Arith Lia Bool QArith Qcanon.
From Verif Require Import Base NdArray NdData BlockModel BlockSpec CovModel CovSpec CovProofs CrossModel CrossSpec CrossProofs CrossKern CrossViews CrossFun CrossOps.
Import ListNotations.
Open Scope nat_scope.

Section P.
Context {F : fops} (LF : flaws F).
Implicit Types (b out rv sh : shape) (p : pvcc F).
Notation kernel := (point F -> point F -> index -> index -> F).
Notation value := (index -> index -> index -> F).
Add Ring FRing : (F_R (fl_field _ LF)).

(** ** C30 *)
(** [kern_call k K]: at all arrays of points with broadcastable batch shapes,
    [k(x0, x1)] is [K] of the pairs of points; [kern_linop]: so is [k.linop(x0, x1)], for
    all pairs, outputs before points. *)
Theorem C30_independent l k (G : nat -> kernel) : mk_ind l = Ok k ->
  (forall n c, nth_error l n = Some c -> kern_call c (G n)) ->
  k_out0 k = [length l] /\ k_out1 k = [length l] /\
  kern_call k (fun x y o q => if nth 0 o 0 =? nth 0 q 0 then G (nth 0 o 0) x y [] [] else f0).
Proof. intros M H. destruct (mk_ind_is _ _ M) as [E _]. split; [now rewrite E|]. split; [now rewrite E|]. now apply (ind_kern l). Qed.
Theorem C30_independent_jax l k x0 x1 b0 b1 b (G : nat -> index -> F) : mk_ind l = Ok k ->
  points (k_in k) x0 x1 b0 b1 -> broadcast_shapes b0 b1 = Ok b ->
  (forall n c, nth_error l n = Some c -> exists a, k_jax c x0 x1 = Ok a /\ cov_array a b [] [] (fun i _ _ => G n i)) ->
  exists a, k_jax k x0 x1 = Ok a /\
    cov_array a b [length l] [length l] (fun i o q => if nth 0 o 0 =? nth 0 q 0 then G (nth 0 o 0) i else f0).
Proof. apply ind_jax. Qed.
Theorem C30_independent_linop l k (G : nat -> kernel) b0 b1 : mk_ind l = Ok k ->
  (forall n c, nth_error l n = Some c -> kern_linop c (G n) b0 b1) ->
  kern_linop k (fun x y o q => if nth 0 o 0 =? nth 0 q 0 then G (nth 0 o 0) x y [] [] else f0) b0 b1.
Proof. apply ind_kern_linop. Qed.
Theorem C30_stack sh l idx k (G : nat -> kernel) : mk_stack sh l idx = Ok k -> length l = size sh ->
  (forall n c, nth_error l n = Some c -> kern_call c (G n)) ->
  k_out0 k = (if idx =? 0 then sh else []) /\ k_out1 k = (if idx =? 0 then [] else sh) /\
  kern_call k (fun x y o q => G (ravel sh (if idx =? 0 then o else q)) x y [] []).
Proof.
  intros M L H. destruct (stack_is _ _ _ _ M) as [E [_ [I _]]].
  split; [rewrite E; reflexivity|]. split; [rewrite E; destruct I as [->| ->]; reflexivity|]. now apply (stack_kern sh l).
Qed.
Theorem C30_stack_linop sh l idx k (G : nat -> kernel) b0 b1 : mk_stack sh l idx = Ok k -> length l = size sh ->
  (forall n c, nth_error l n = Some c -> kern_linop c (G n) b0 b1) ->
  kern_linop k (fun x y o q => G (ravel sh (if idx =? 0 then o else q)) x y [] []) b0 b1.
Proof. apply stack_kern_linop. Qed.
(** The jax evaluation of a stack is zero whatever its components are. *)
Theorem C30_stack_jax_zero sh l idx k x0 x1 b0 b1 b (g : nat -> index -> F) : mk_stack sh l idx = Ok k -> length l = size sh ->
  points (k_in k) x0 x1 b0 b1 -> broadcast_shapes b0 b1 = Ok b ->
  (forall n c, nth_error l n = Some c -> exists a, k_jax c x0 x1 = Ok a /\ cov_array a b [] [] (fun i _ _ => g n i)) ->
  exists a, k_jax k x0 x1 = Ok a /\ cov_array a b (k_out0 k) (k_out1 k) (fun _ _ _ => f0).
Proof. apply stack_jax. Qed.
(** Components and zero covariance functions. *)
Theorem C30_leaf insh o0 o1 (v : kernel) :
  kern_call (KLeaf insh o0 o1 v) v /\ (forall b0 b1, kern_linop (KLeaf insh o0 o1 v) v b0 b1) /\
  forall x0 x1 b0 b1 b, points insh x0 x1 b0 b1 -> broadcast_shapes b0 b1 = Ok b ->
    exists a, k_jax (KLeaf insh o0 o1 v) x0 x1 = Ok a /\
      cov_array a b o0 o1 (fun i o q => v (pt x0 (operand_index b0 i)) (pt (second x0 x1) (operand_index b1 i)) o q).
Proof. split; [apply leaf_kern|]. split; [intros; apply leaf_kern_linop|]. intros. now apply leaf_jax. Qed.
Theorem C30_zero insh o0 o1 :
  kern_call (@KZero F insh o0 o1) (fun _ _ _ _ => f0) /\
  (forall n0 n1, kern_linop (@KZero F insh o0 o1) (fun _ _ _ _ => f0) [n0] [n1]) /\
  forall (x0 : nd F) x1 b0 b1 b, points insh x0 x1 b0 b1 -> broadcast_shapes b0 b1 = Ok b ->
    exists a, k_jax (KZero insh o0 o1) x0 x1 = Ok a /\ cov_array a b o0 o1 (fun _ _ _ => f0).
Proof. split; [apply zero_kern|]. split; [intros; apply zero_kern_linop|]. intros x0 x1 b0 b1 b H B. apply (zero_both insh o0 o1 x0 x1 b0 b1 b H B). Qed.
(** The constructors accept exactly scalar components with a common input shape. *)
Theorem C30_constructors sh (l : list (kfun F)) :
  (mk_ind l = Ok (KInd l) \/ mk_ind l = Err AssertionError) /\
  (mk_ind l = Ok (KInd l) <-> exists c, In c l /\ Forall (fun d => k_in d = k_in c /\ k_out0 d = [] /\ k_out1 d = []) l) /\
  forall idx,
  (mk_stack sh l idx = Ok (KStack sh l idx) <->
     (idx = 0 \/ idx = 1) /\ exists c, In c l /\ Forall (fun d => k_in d = k_in c /\ k_out0 d = [] /\ k_out1 d = []) l) /\
  (mk_stack sh l idx = Ok (KStack sh l idx) \/ mk_stack sh l idx = Err (match l with [] => IndexError | _ => ValueError end)).
Proof.
  split; [unfold mk_ind; destruct l; [now right|]; destruct (forallb _ _); auto|]. split.
  - split.
    + intros M. destruct (mk_ind_is _ _ M) as [_ [N H]]. destruct l as [|c l]; [congruence|]. exists c. split; [now left|exact H].
    + intros [c [Hc H]]. destruct l as [|d l]; [easy|]. cbn [mk_ind]. rewrite Forall_forall in H. destruct (H d (or_introl eq_refl)) as [Ed _].
      replace (forallb _ (d :: l)) with true; [reflexivity|]. symmetry. apply forallb_forall. intros a Ha. destruct (H a Ha) as [-> [-> ->]].
      now rewrite Ed, shape_eqb_refl.
  - intros idx. split.
    + split.
      * intros M. destruct (stack_is _ _ _ _ M) as [_ [N [I H]]]. split; [exact I|]. destruct l as [|c l]; [congruence|]. exists c. split; [now left|exact H].
      * intros [I [c [Hc H]]]. rewrite Forall_forall in H. apply (mk_stack_ok sh l idx (k_in c)); auto. now destruct l.
    + unfold mk_stack. destruct l; [now right|]. destruct (negb _); auto. destruct (negb _); auto. destruct (negb _); auto.
Qed.
(** Selecting an output. *)
Theorem C30_select_stack (L : lop F) sh l n k idx : mk_stack sh l n = Ok k -> length l = size sh ->
  lo_dom L = k_in k -> lo_cod L = sh ->
  (valid_index sh idx -> exists c, nth_error l (ravel sh idx) = Some c /\ select_kern L idx k n = Ok c) /\
  (~ valid_index sh idx -> select_kern L idx k n = Err IndexError).
Proof. apply select_stack. Qed.
Theorem C30_select_independent (L : lop F) l k i n (G : nat -> kernel) : mk_ind l = Ok k -> lo_dom L = k_in k -> lo_cod L = [length l] ->
  (n = 0 \/ n = 1) -> i < length l -> (forall m c, nth_error l m = Some c -> kern_call c (G m)) ->
  exists k', select_kern L [i] k n = Ok k' /\ k_in k' = k_in k /\
    k_out0 k' = (if n =? 0 then [] else [length l]) /\ k_out1 k' = (if n =? 0 then [length l] else []) /\
    kern_call k' (fun x y o q => if nth 0 (if n =? 0 then q else o) 0 =? i then G i x y [] [] else f0).
Proof. apply select_ind. Qed.
Theorem C30_select_cross sh l p idx : mk_pstack sh l = Ok p -> length l = size sh ->
  (valid_index sh idx -> exists c, nth_error l (ravel sh idx) = Some c /\ select_pv idx p = Ok c) /\
  (~ valid_index sh idx -> select_pv idx p = Err IndexError).
Proof.
  intros M L. destruct (pstack_is _ _ _ M) as [-> _]. cbn [select_pv]. split.
  - intros H. rewrite (valid_forallb _ _ H). destruct (nth_error l (ravel sh idx)) as [c|] eqn:E; [now exists c|].
    apply nth_error_None in E. pose proof (ravel_lt _ _ H). lia.
  - intros H. destruct (_ && _) eqn:E; [|reflexivity]. now apply valid_forallb_inv in E.
Qed.

(** ** C31 *)
(** A functional on the second argument: [k(x, X)], the array in both layouts, the
    operator where the layout of the functional is output-major. *)
Theorem C31_argument1 k (K : kernel) e x b : kern_call k K ->
  mk_evalf (ev_dirac e) (k_in k) (k_out1 k) (ev_X e) = Ok e -> nshape x = b ++ k_in k ->
  f_kern (FEval e) k 1 = Ok (PEval k e false) /\
  (exists a, p_call (PEval k e false) x = Ok a /\
    cross_array a false b (k_out0 k) (ev_out e) (fun i o r => K (pt x i) (pt (ev_X e) (ev_point e r)) o (ev_output e r))) /\
  (kern_linop k K b (ev_batch e) -> ev_dirac e = false \/ ev_cod e = [] \/ ev_batch e = [] ->
   exists m, p_linop (PEval k e false) x = Ok m /\
    cross_matrix m false b (k_out0 k) (ev_out e) (fun i o r => K (pt x i) (pt (ev_X e) (ev_point e r)) o (ev_output e r))).
Proof.
  intros HC HE E. split.
  { rewrite eval_kern. destruct (ev_is _ _ _ _ _ HE) as [Ee _].
    rewrite (proj2 (validate_ok (ev_dom e) (ev_cod e) k 1)); [reflexivity|]. rewrite Ee. repeat split. now right. }
  split; [now apply eval1_array|]. intros HL P. apply (linop_view (PEval k e false) x b). now apply eval1_shows.
Qed.
(** On the first argument the operator is [k(X, x)]; the array is [k(x, X)] with the
    outputs of [k(X, x)]. *)
Theorem C31_argument0 k (K : kernel) e x b : kern_call k K ->
  mk_evalf (ev_dirac e) (k_in k) (k_out0 k) (ev_X e) = Ok e -> nshape x = b ++ k_in k ->
  f_kern (FEval e) k 0 = Ok (PEval k e true) /\ p_out (PEval k e true) = k_out1 k /\
  (exists a, p_call (PEval k e true) x = Ok a /\
    cross_array a true b (k_out1 k) (ev_out e) (fun i o r => K (pt x i) (pt (ev_X e) (ev_point e r)) (ev_output e r) o)) /\
  (kern_linop k K (ev_batch e) b -> ev_dirac e = false \/ ev_cod e = [] \/ ev_batch e = [] ->
   exists m, p_linop (PEval k e true) x = Ok m /\
    cross_matrix m true b (k_out1 k) (ev_out e) (fun i o r => K (pt (ev_X e) (ev_point e r)) (pt x i) (ev_output e r) o)).
Proof.
  intros HC HE E. split.
  { rewrite eval_kern. destruct (ev_is _ _ _ _ _ HE) as [Ee _].
    rewrite (proj2 (validate_ok (ev_dom e) (ev_cod e) k 0)); [reflexivity|]. rewrite Ee. repeat split. now left. }
  split.
  { destruct (ev_is _ _ _ _ _ HE) as [Ee _]. cbn [p_out]. assert (Ec : ev_cod e = k_out0 k) by (rewrite Ee; reflexivity).
    rewrite Ec, skipn_app_l by reflexivity. now destruct (ev_dirac e). }
  split; [now apply eval0_array|]. intros HL P. destruct (eval0_linop k K e x b HL HE P E) as [m [Em Hm]].
  exists m. split; [|exact Hm]. unfold p_linop, p_public. cbn [p_in]. rewrite (batch_shape_ok _ _ _ E). cbn [bind]. now rewrite Em.
Qed.
(** So both views are [k(X, x)] if the values of [k] do not change when the points (but
    not the outputs) are swapped. *)
Theorem C31_argument0_symmetric k (K : kernel) e x b : kern_call k K -> kern_linop k K (ev_batch e) b ->
  mk_evalf (ev_dirac e) (k_in k) (k_out0 k) (ev_X e) = Ok e -> (ev_dirac e = false \/ ev_cod e = [] \/ ev_batch e = []) ->
  (forall y z q o, K y z q o = K z y q o) -> nshape x = b ++ k_in k ->
  pv_shows (PEval k e true) x b (fun i o r => K (pt (ev_X e) (ev_point e r)) (pt x i) (ev_output e r) o).
Proof. apply eval0_shows. Qed.
(** Evaluations on both arguments give [k(X0, X1)] in either order. *)
Theorem C31_both k (K : kernel) e0 e1 : kern_call k K -> kern_linop k K (ev_batch e0) (ev_batch e1) ->
  mk_evalf false (k_in k) (k_out0 k) (ev_X e0) = Ok e0 -> mk_evalf false (k_in k) (k_out1 k) (ev_X e1) = Ok e1 ->
  forall first : bool, exists p c,
    f_kern (FEval (if first then e0 else e1)) k (if first then 0 else 1) = Ok p /\
    f_pv (FEval (if first then e1 else e0)) p = Ok c /\
    shows c (k_out0 k ++ ev_batch e0) (k_out1 k ++ ev_batch e1) (fun r s =>
      K (pt (ev_X e0) (skipn (length (k_out0 k)) r)) (pt (ev_X e1) (skipn (length (k_out1 k)) s))
        (firstn (length (k_out0 k)) r) (firstn (length (k_out1 k)) s)).
Proof.
  intros HC HL H0 H1. destruct (ev_is _ _ _ _ _ H0) as [E0 S0]. destruct (ev_is _ _ _ _ _ H1) as [E1 S1].
  assert (D0 : ev_dirac e0 = false) by (rewrite E0; reflexivity). assert (D1 : ev_dirac e1 = false) by (rewrite E1; reflexivity).
  assert (C0 : ev_cod e0 = k_out0 k) by (rewrite E0; reflexivity). assert (C1 : ev_cod e1 = k_out1 k) by (rewrite E1; reflexivity).
  rewrite <- D0 in H0. rewrite <- D1 in H1. clear E0 E1. intros [|].
  - exists (PEval k e0 true). destruct (C31_argument0 k K e0 (ev_X e1) (ev_batch e1) HC H0 S1) as [Ek [Eo [_ HM]]].
    destruct (HM HL (or_introl D0)) as [m [Em [Rm [Cm Vm]]]]. cbn [f_pv]. unfold cov_shapes. cbn [p_rev p_rv]. rewrite Em. cbn [bind].
    destruct (linop_cov_shows m (ev_out e0) (ev_out e1) (fun r s =>
      K (pt (ev_X e0) (skipn (length (k_out0 k)) r)) (pt (ev_X e1) (skipn (length (k_out1 k)) s))
        (firstn (length (k_out0 k)) r) (firstn (length (k_out1 k)) s))) as [c [Ec Hc]].
    + unfold ev_out in Rm |- *. rewrite D0 in Rm. rewrite D0, D1, C0, C1 in *. split; [exact Rm|]. split; [exact Cm|].
      intros r s Hr Hs. unfold ev_out, ev_point, ev_output in Vm. rewrite D0, C0 in Vm. now apply Vm.
    + exists c. split; [exact Ek|]. split; [exact Ec|]. unfold ev_out in Hc. rewrite D0, D1, C0, C1 in Hc. exact Hc.
  - exists (PEval k e1 false). destruct (C31_argument1 k K e1 (ev_X e0) (ev_batch e0) HC H1 S0) as [Ek [_ HM]].
    destruct (HM HL (or_introl D1)) as [m [Em [Rm [Cm Vm]]]]. cbn [f_pv]. unfold cov_shapes. cbn [p_rev p_rv]. rewrite Em. cbn [bind].
    destruct (linop_cov_shows m (ev_out e0) (ev_out e1) (fun r s =>
      K (pt (ev_X e0) (skipn (length (k_out0 k)) r)) (pt (ev_X e1) (skipn (length (k_out1 k)) s))
        (firstn (length (k_out0 k)) r) (firstn (length (k_out1 k)) s))) as [c [Ec Hc]].
    + unfold ev_out in Cm |- *. rewrite D1 in Cm. rewrite D0, D1, C0, C1 in *. split; [exact Rm|]. split; [exact Cm|].
      intros r s Hr Hs. unfold ev_out, ev_point, ev_output in Vm. rewrite D1, C1 in Vm. now apply Vm.
    + exists c. split; [exact Ek|]. split; [exact Ec|]. unfold ev_out in Hc. rewrite D0, D1, C0, C1 in Hc. exact Hc.
Qed.
(** Applied to a function, both return its values, in the layout of [output_shape]. *)
Theorem C31_function e (f : nd F -> result (nd F)) fX b (v : index -> index -> F) :
  mk_evalf (ev_dirac e) (ev_dom e) (ev_cod e) (ev_X e) = Ok e -> b = ev_batch e ->
  f (ev_X e) = Ok fX -> nshape fX = b ++ ev_cod e ->
  (forall i o, valid_index b i -> valid_index (ev_cod e) o -> nat_ fX (i ++ o) = v i o) ->
  exists a, ev_fun e (ev_cod e) f = Ok a /\ nshape a = ev_out e /\
    forall r, valid_index (ev_out e) r -> nat_ a r = v (ev_point e r) (ev_output e r).
Proof.
  intros HE -> Ef S V. unfold ev_fun. rewrite Ef. cbn [bind]. destruct (ev_dirac e) eqn:D.
  - exists fX. split; [reflexivity|]. unfold ev_out. rewrite D. split; [exact S|]. intros r Hr.
    destruct (ev_out_inv e r) as [s [q [Hs [Hq [Es [Eq Er]]]]]]; [unfold ev_out; now rewrite D|]. rewrite D in Er. rewrite Es, Eq, Er. now apply V.
  - rewrite S, shape_eqb_refl. destruct (0 <? length (ev_cod e)) eqn:L.
    + assert (S' : nshape fX = ev_batch e ++ ev_cod e ++ []) by now rewrite app_nil_r. destruct (to_front fX (ev_batch e) (ev_cod e) [] S') as [a [Ea [Sa Va]]].
      rewrite app_length. replace (length (ev_batch e) + length (ev_cod e) - length (ev_cod e)) with (length (ev_batch e)) by lia.
      exists a. split; [exact Ea|]. rewrite app_nil_r in Sa. unfold ev_out. rewrite D. split; [exact Sa|]. intros r Hr.
      destruct (ev_out_inv e r) as [s [q [Hs [Hq [Es [Eq Er]]]]]]; [unfold ev_out; now rewrite D|]. rewrite D in Er. rewrite Es, Eq, Er.
      specialize (Va s q [] (valid_index_length _ _ Hs) (valid_index_length _ _ Hq) eq_refl). rewrite !app_nil_r in Va. rewrite Va. now apply V.
    + assert (C : ev_cod e = []) by (destruct (ev_cod e); [reflexivity|discriminate L]). exists fX. split; [reflexivity|].
      unfold ev_out. rewrite D, C in *. rewrite app_nil_r in S. split; [exact S|]. intros r Hr.
      destruct (ev_out_inv e r) as [s [q [Hs [Hq [Es [Eq Er]]]]]]; [unfold ev_out; now rewrite D, C|]. rewrite D in Er. rewrite C in Hq.
      assert (Q : q = []) by now inversion Hq. rewrite Es, Eq, Er, Q. cbn [app]. rewrite <- (V s [] Hs) by constructor. now rewrite app_nil_r.
Qed.
Theorem C31_constructor dirac dom cod (X : nd F) :
  (forall b, nshape X = b ++ dom -> exists e, mk_evalf dirac dom cod X = Ok e /\ ev_batch e = b /\
     ev_dom e = dom /\ ev_cod e = cod /\ ev_X e = X /\ ev_dirac e = dirac /\ ev_out e = if dirac then b ++ cod else cod ++ b) /\
  ((forall b, nshape X <> b ++ dom) -> mk_evalf dirac dom cod X = Err AssertionError).
Proof.
  unfold mk_evalf. split.
  - intros b E. assert (B : firstn (length (nshape X) - length dom) (nshape X) = b).
    { rewrite E, app_length. replace (length b + length dom - length dom) with (length b) by lia. now apply firstn_app_l. }
    rewrite B, E, shape_eqb_refl. eexists. split; [reflexivity|]. unfold ev_out, ev_batch. cbn [ev_X ev_dom ev_cod ev_dirac]. rewrite B. auto 6.
  - intros H. destruct (shape_eqb_spec (nshape X) (firstn (length (nshape X) - length dom) (nshape X) ++ dom)) as [E|]; [|reflexivity]. now apply H in E.
Qed.

(** ** C32 *)
Lemma pv_shows_ext p x b (g h : value) : pv_shows p x b g ->
  (forall i o r, valid_index b i -> valid_index (p_out p) o -> valid_index (p_rv p) r -> g i o r = h i o r) -> pv_shows p x b h.
Proof.
  intros [E [[a [Ea Ha]] H]] X. split; [exact E|]. split; [exists a; split; [exact Ea|]; now apply (cross_array_ext _ _ _ _ _ g)|].
  destruct H as [H|[m [Em Hm]]]; [now left|right]. exists m. split; [exact Em|]. now apply (cross_matrix_ext _ _ _ _ _ g).
Qed.
(** [pv_shows p x b g]: the array view of [p] at the points [x] shows [g], and so does the
    operator view of the class of [p] if it has one.  Then both public views do. *)
Theorem C32_views p x b g : pv_shows p x b g ->
  (exists a, p_call p x = Ok a /\ cross_array a (p_rev p) b (p_out p) (p_rv p) g) /\
  (exists m, p_linop p x = Ok m /\ cross_matrix m (p_rev p) b (p_out p) (p_rv p) g).
Proof. intros H. split; [apply H|]. now apply linop_view. Qed.
Theorem C32_bad_points p x : (forall b, nshape x <> b ++ p_in p) -> p_call p x = Err ValueError /\ p_linop p x = Err ValueError.
Proof.
  intros H. unfold p_linop, p_public. rewrite p_call_unfold, (batch_shape_err _ _ H). auto.
Qed.
Theorem C32_leaf insh out rv rev (v : point F -> index -> index -> F) x b : nshape x = b ++ insh ->
  pv_shows (PLeaf insh out rv rev v) x b (fun i o r => v (pt x i) o r).
Proof. apply leaf_shows. Qed.
Theorem C32_zero insh out rv rev (x : nd F) b : nshape x = b ++ insh -> pv_shows (PZero insh out rv rev) x b (fun _ _ _ => f0).
Proof. apply zero_shows. Qed.
Theorem C32_scaled c p x b g : pv_shows p x b g ->
  pv_shows (p_rmul c p) x b (fun i o r => fmul c (g i o r)).
Proof. apply scaled_shows. Qed.
Theorem C32_neg p x b g : pv_shows p x b g -> pv_shows (p_neg p) x b (fun i o r => fopp (g i o r)).
Proof. intros H. eapply pv_shows_ext; [apply (scaled_shows _ p x b g H)|]. intros i o r _ _ _. cbn beta. ring. Qed.
Theorem C32_sum l p x b gs : mk_sum l = Ok p -> Forall2 (fun q g => pv_shows q x b g) l gs ->
  pv_shows p x b (fun i o r => fsum (map (fun g => g i o r) gs)).
Proof. apply (sum_shows LF). Qed.
Theorem C32_add p q x b g h : p_in p = p_in q -> p_out p = p_out q -> p_rv p = p_rv q -> p_rev p = p_rev q ->
  pv_shows p x b g -> pv_shows q x b h ->
  (exists s, p_add p q = Ok s /\ p_out s = p_out p /\ p_rv s = p_rv p /\ p_rev s = p_rev p /\ pv_shows s x b (fun i o r => fadd (g i o r) (h i o r))) /\
  (exists s, p_sub p q = Ok s /\ p_out s = p_out p /\ p_rv s = p_rv p /\ p_rev s = p_rev p /\ pv_shows s x b (fun i o r => fsub (g i o r) (h i o r))).
Proof.
  intros E1 E2 E3 E4 Hp Hq.
  assert (M : forall r, p_in r = p_in q -> p_out r = p_out q -> p_rv r = p_rv q -> p_rev r = p_rev q -> mk_sum [p; r] = Ok (PSum [p; r])).
  { intros r R1 R2 R3 R4. unfold mk_sum. cbn [forallb]. now rewrite R1, R2, R3, R4, E1, E2, E3, E4, !shape_eqb_refl, !eqb_reflx. }
  split.
  - exists (PSum [p; q]). pose proof (M q eq_refl eq_refl eq_refl eq_refl) as Mq. split; [exact Mq|]. split; [reflexivity|]. split; [reflexivity|]. split; [reflexivity|].
    eapply pv_shows_ext; [apply (sum_shows LF _ _ x b [g; h] Mq); constructor; [exact Hp|constructor; [exact Hq|constructor]]|].
    intros i o r _ _ _. unfold sum_values, fsum. cbn [map fold_right]. ring.
  - exists (PSum [p; p_neg q]). pose proof (M (p_neg q) eq_refl eq_refl eq_refl eq_refl) as Mq. split; [exact Mq|]. split; [reflexivity|]. split; [reflexivity|]. split; [reflexivity|].
    eapply pv_shows_ext; [apply (sum_shows LF _ _ x b [g; fun i o r => fopp (h i o r)] Mq); constructor; [exact Hp|constructor; [now apply C32_neg|constructor]]|].
    intros i o r _ _ _. unfold sum_values, fsum. cbn [map fold_right]. ring.
Qed.
Theorem C32_sum_constructor (l : list (pvcc F)) :
  (mk_sum l = Ok (PSum l) <-> exists q, In q l /\ Forall (fun c => p_in c = p_in q /\ p_out c = p_out q /\ p_rv c = p_rv q /\ p_rev c = p_rev q) l) /\
  (mk_sum l = Ok (PSum l) \/ mk_sum l = Err (match l with [] => IndexError | _ => AssertionError end)).
Proof.
  split.
  - split.
    + intros M. destruct (mk_sum_is l _ M) as [q [l' [-> [_ H]]]]. exists q. split; [now left|exact H].
    + intros [q [Hq H]]. rewrite Forall_forall in H. destruct l as [|d l]; [easy|]. cbn [mk_sum].
      destruct (H d (or_introl eq_refl)) as [D1 [D2 [D3 D4]]]. replace (forallb _ (d :: l)) with true; [reflexivity|].
      symmetry. apply forallb_forall. intros c Hc. destruct (H c Hc) as [-> [-> [-> ->]]]. now rewrite D1, D2, D3, D4, !shape_eqb_refl, eqb_reflx.
  - unfold mk_sum. destruct l; [now right|]. destruct (forallb _ _); auto.
Qed.
(** [linop @ crosscov]: the array view is always the transformed one; the operator view
    is if the random vector comes first or the class has no operator view of its own. *)
Theorem C32_linear A p q x b g : mk_plinop A p = Ok q -> pv_shows p x b g ->
  p_rv q = [nrows A] /\ p_rev q = p_rev p /\
  (exists a, p_call q x = Ok a /\ cross_array a (p_rev p) b (p_out p) [nrows A]
     (fun i o r => fsum (map (fun k => fmul (entry A (nth 0 r 0) k) (g i o [k])) (seq 0 (ncols A))))) /\
  (p_rev p = true \/ p_own_linop p x = Err NotImplementedError ->
   pv_shows q x b (fun i o r => fsum (map (fun k => fmul (entry A (nth 0 r 0) k) (g i o [k])) (seq 0 (ncols A))))).
Proof.
  intros M H. pose proof (plinop_is _ _ _ M) as [E _]. split; [now rewrite E|]. split; [now rewrite E|]. split.
  - destruct H as [EX [[a [Ea Ha]] _]]. now apply (plinop_array A p q x b g a).
  - now apply (plinop_shows A p q x b g).
Qed.
(** Otherwise the map multiplies the operator from the side of the process. *)
Theorem C32_linear_operator A p q x b m : mk_plinop A p = Ok q -> nshape x = b ++ p_in p -> p_own_linop p x = Ok m ->
  p_linop q x = mat_mul A m.
Proof. apply plinop_own. Qed.
Theorem C32_linear_constructor A p :
  (p_rv p = [ncols A] -> mk_plinop A p = Ok (PLinOp A p)) /\ (p_rv p <> [ncols A] -> mk_plinop A p = Err AssertionError).
Proof.
  unfold mk_plinop. split.
  - intros ->. cbn [length Nat.eqb]. now rewrite shape_eqb_refl.
  - intros N. destruct (length (p_rv p) =? 1); [|reflexivity]. destruct (shape_eqb_spec [ncols A] (p_rv p)); congruence.
Qed.
Theorem C32_stack sh l p x b (g : nat -> index -> index -> F) : mk_pstack sh l = Ok p -> length l = size sh ->
  (forall n c, nth_error l n = Some c -> pv_shows c x b (fun i _ r => g n i r)) ->
  p_out p = sh /\ pv_shows p x b (fun i o r => g (ravel sh o) i r).
Proof. intros M L H. split; [now destruct (pstack_is _ _ _ M) as [-> _]|]. now apply (pstack_shows sh l p x b g M L). Qed.
Theorem C32_stack_constructor sh (l : list (pvcc F)) :
  (mk_pstack sh l = Ok (PStack sh l) <-> exists q, In q l /\ Forall (fun c => p_in c = p_in q /\ p_out c = [] /\ p_rv c = p_rv q /\ p_rev c = p_rev q) l) /\
  (mk_pstack sh l = Ok (PStack sh l) \/ mk_pstack sh l = Err (match l with [] => IndexError | _ => ValueError end)).
Proof.
  split.
  - split.
    + intros M. destruct (pstack_is _ _ _ M) as [_ [N H]]. destruct l as [|c l]; [congruence|]. exists c. split; [now left|exact H].
    + intros [q [Hq H]]. rewrite Forall_forall in H. apply (mk_pstack_ok sh l (p_in q) (p_rv q) (p_rev q)); auto. now destruct l.
  - unfold mk_pstack. destruct l; [now right|]. do 4 (destruct (negb _); auto).
Qed.
(** The cross-covariance of a parametric process: [C phi(x)], where [C] has the random
    vector on its first axis. *)
Theorem C32_parametric c insh n (basis : point F -> nat -> F) x b m0 s1 h : nshape x = b ++ insh -> shows c [m0] s1 h -> size s1 = n ->
  pv_shows (PParam c insh n basis true) x b (fun i _ r => fsum (map (fun k => fmul (h r (unravel s1 k)) (basis (pt x i) k)) (seq 0 n))).
Proof.
  intros E S Sn. split; [exact E|]. split; [|now left].
  replace (p_rv (PParam c insh n basis true)) with [m0] by (symmetry; apply S). apply (param_shows c insh n basis true x b m0 s1 h E S Sn). discriminate.
Qed.
Theorem C32_parametric_symmetric c insh n (basis : point F -> nat -> F) x b h : nshape x = b ++ insh -> shows c [n] [n] h -> (forall i j, h i j = h j i) ->
  pv_shows (PParam c insh n basis false) x b (fun i _ r => fsum (map (fun k => fmul (h [k] r) (basis (pt x i) k)) (seq 0 n))).
Proof.
  intros E S Sy. split; [exact E|]. split; [|now left].
  replace (p_rv (PParam c insh n basis false)) with [n] by (symmetry; apply S).
  destruct (param_shows c insh n basis false x b n [n] h E S (size1 n) (fun _ => eq_refl)) as [a [Ea Ha]].
  exists a. split; [exact Ea|]. eapply cross_array_ext; [exact Ha|]. intros i o r _ _ _. cbn beta. apply fsum_seq_ext. intros k Hk. f_equal.
  rewrite Sy. f_equal. pose proof (unravel_valid [n] k ltac:(rewrite size1; exact Hk)) as V. apply valid1_inv in V as [u [Eu _]].
  rewrite Eu. f_equal. rewrite <- (ravel1 n u), <- Eu. apply ravel_unravel. now rewrite size1.
Qed.

(** ** C51 *)
(** Functionals applied to cross-covariances: [g] of the points of an evaluation, *)
Theorem C51_evaluation e p g : pv_shows p (ev_X e) (ev_batch e) g -> ev_cod e = p_out p -> (ev_dirac e = false \/ ev_cod e = [] \/ ev_batch e = []) ->
  exists c, f_pv (FEval e) p = Ok c /\ functl_cov c (p_rev p) (ev_out e) (p_rv p) (fun s r => g (ev_point e s) (ev_output e s) r).
Proof. intros H EC P. now apply (functl_eval e p (ev_X e) (ev_batch e) g). Qed.
(** and of other functionals, if they do the right thing on the parts. [lf_shows L p h]:
    [L(p)] is a covariance with entries [h]. *)
Theorem C51_leaf (L : lfun F) insh outsh rv rev v : lf_shows L (PLeaf insh outsh rv rev v) (fun s r => lf_act L (fun y o => v y o r) s).
Proof. apply lf_leaf. Qed.
Theorem C51_scaled L c p h : lf_shows L p h -> lf_shows L (PScaled c p) (fun s r => fmul c (h s r)).
Proof. apply lf_scaled. Qed.
Theorem C51_sum L l p hs : mk_sum l = Ok p -> Forall2 (lf_shows L) l hs -> lf_shows L p (fun s r => fsum (map (fun h => h s r) hs)).
Proof. apply (lf_sum LF). Qed.
Theorem C51_linear L A p q h : mk_plinop A p = Ok q -> lf_shows L p h ->
  lf_shows L q (fun s r => fsum (map (fun k => fmul (entry A (nth 0 r 0) k) (h s [k])) (seq 0 (ncols A)))).
Proof. apply lf_linop. Qed.
Theorem C51_dirac (L : lfun F) insh out0 out1 (v : kernel) e (n : nat) : n = 0 \/ n = 1 -> lf_dom L = insh -> lf_cod L = (if n =? 0 then out1 else out0) ->
  mk_evalf (ev_dirac e) insh (if n =? 0 then out0 else out1) (ev_X e) = Ok e ->
  (ev_dirac e = true \/ ev_cod e = [] \/ ev_batch e = []) ->
  lf_shows L (PEval (KLeaf insh out0 out1 v) e (n =? 0)) (fun s r => lf_act L (fun y o =>
    if n =? 0 then v (pt (ev_X e) (ev_point e r)) y (ev_output e r) o else v y (pt (ev_X e) (ev_point e r)) o (ev_output e r)) s).
Proof. intros [->| ->]; [apply lf_eval0|apply lf_eval1]. Qed.
(** The matrix of a composite functional acts on the axis of the functional. *)
Theorem C51_composite A f f' p c h : mk_fcomp A f = Ok f' -> f_pv f p = Ok c -> functl_cov c (p_rev p) (f_out f) (p_rv p) h ->
  exists d, f_pv f' p = Ok d /\ functl_cov d (p_rev p) [nrows A] (p_rv p)
    (fun s r => fsum (map (fun k => fmul (entry A (nth 0 s 0) k) (h [k] r)) (seq 0 (ncols A)))).
Proof.
  intros M. assert (E : f_out f' = [nrows A]) by (unfold mk_fcomp in M; destruct (_ && _); [injection M as <-; reflexivity|discriminate]).
  rewrite <- E. now apply fcomp_shows.
Qed.
Theorem C51_composite_constructor A (f : functl F) :
  (f_out f = [ncols A] -> mk_fcomp A f = Ok (FComp A f)) /\ (f_out f <> [ncols A] -> mk_fcomp A f = Err AssertionError).
Proof.
  unfold mk_fcomp. split.
  - intros ->. cbn [length Nat.eqb andb]. now rewrite shape_eqb_refl.
  - intros N. destruct (shape_eqb_spec (f_out f) [ncols A]); [congruence|]. now rewrite andb_false_r.
Qed.
(** Functionals applied to covariance functions. *)
Theorem C51_kernel_validation (f : functl F) k n :
  (validate (f_dom f) (f_cod f) k n = Ok tt <-> (n = 0 \/ n = 1) /\ k_in k = f_dom f /\ (if n =? 0 then k_out0 k else k_out1 k) = f_cod f) /\
  (validate (f_dom f) (f_cod f) k n <> Ok tt -> f_kern f k n = Err ValueError).
Proof.
  split; [apply validate_ok|]. intros N. destruct (validate_err (f_dom f) (f_cod f) k n) as [E|E]; [congruence|].
  destruct f as [L|e|A f]; cbn [f_kern f_dom f_cod] in *.
  - destruct k; cbn [lf_kern]; rewrite E; reflexivity.
  - rewrite E. reflexivity.
  - rewrite E. reflexivity.
Qed.
Theorem C51_kernel_leaf (L : lfun F) insh o0 o1 (v : kernel) n x b : validate (lf_dom L) (lf_cod L) (KLeaf insh o0 o1 v) n = Ok tt -> nshape x = b ++ insh ->
  exists p, f_kern (FLeaf L) (KLeaf insh o0 o1 v) n = Ok p /\ p_rev p = (n =? 0) /\ p_rv p = lf_out L /\ p_out p = (if n =? 0 then o1 else o0) /\
    pv_shows p x b (fun i o r => lf_act L (fun y q => if n =? 0 then v y (pt x i) q o else v (pt x i) y o q) r).
Proof.
  intros V E. cbn [f_kern lf_kern]. rewrite V. cbn [bind]. destruct (n =? 0); eexists; (split; [reflexivity|]); (split; [reflexivity|]); (split; [reflexivity|]); (split; [reflexivity|]).
  - exact (leaf_shows insh o1 (lf_out L) true (fun z o r => lf_act L (fun y q => v y z q o) r) x b E).
  - exact (leaf_shows insh o0 (lf_out L) false (fun z o r => lf_act L (fun y q => v z y o q) r) x b E).
Qed.
Theorem C51_kernel_zero (L : lfun F) insh o0 o1 n x b : validate (lf_dom L) (lf_cod L) (@KZero F insh o0 o1) n = Ok tt -> nshape x = b ++ insh ->
  exists p, f_kern (FLeaf L) (KZero insh o0 o1) n = Ok p /\ p_rev p = (n =? 0) /\ p_rv p = lf_out L /\ p_out p = (if n =? 0 then o1 else o0) /\
    pv_shows p x b (fun _ _ _ => f0).
Proof.
  intros V E. cbn [f_kern lf_kern]. rewrite V. cbn [bind]. eexists. split; [reflexivity|]. split; [reflexivity|]. split; [reflexivity|]. split; [reflexivity|].
  apply (zero_shows insh (if n =? 0 then o1 else o0) (lf_out L) (n =? 0) x b E).
Qed.
(** On a stack of scalar covariance functions [v 0, v 1, ...] over the other argument. *)
Theorem C51_kernel_stack (L : lfun F) sh insh (v : nat -> point F -> point F -> F) idx n k x b :
  mk_stack sh (map (fun m => KLeaf insh [] [] (fun x y _ _ => v m x y)) (seq 0 (size sh))) idx = Ok k ->
  lf_dom L = insh -> lf_cod L = [] -> n = 1 - idx -> nshape x = b ++ insh ->
  exists p, f_kern (FLeaf L) k n = Ok p /\ p_out p = sh /\ p_rv p = lf_out L /\ p_rev p = (n =? 0) /\
   pv_shows p x b (fun i o r => lf_act L (fun y _ => if n =? 0 then v (ravel sh o) y (pt x i) else v (ravel sh o) (pt x i) y) r).
Proof. apply (lf_kern_leaves L sh insh v idx n k x b). Qed.
Theorem C51_kernel_composite A f k n p : validate (f_dom f) (f_cod f) k n = Ok tt -> f_kern f k n = Ok p ->
  f_kern (FComp A f) k n = mk_plinop A p.
Proof. intros V E. cbn [f_kern f_dom f_cod]. now rewrite V, E. Qed.

(** ** C52 *)
Theorem C52_kernel_leaf (L : lop F) insh o0 o1 (v : kernel) n : validate (lo_dom L) (lo_cod L) (KLeaf insh o0 o1 v) n = Ok tt -> lo_out_dom L = insh ->
  exists k, lo_kern L (KLeaf insh o0 o1 v) n = Ok k /\ k_in k = insh /\
    k_out0 k = (if n =? 0 then lo_out_cod L else o0) /\ k_out1 k = (if n =? 0 then o1 else lo_out_cod L) /\
    let K := fun x y o q => if n =? 0 then lo_act L (fun z r => v z y r q) x o else lo_act L (fun z r => v x z o r) y q in
    kern_call k K /\ forall b0 b1, kern_linop k K b0 b1.
Proof. apply lo_leaf. Qed.
Theorem C52_kernel_zero (L : lop F) insh o0 o1 n : validate (lo_dom L) (lo_cod L) (@KZero F insh o0 o1) n = Ok tt -> lo_out_dom L = insh ->
  lo_kern L (KZero insh o0 o1) n = Ok (KZero insh (if n =? 0 then lo_out_cod L else o0) (if n =? 0 then o1 else lo_out_cod L)).
Proof. apply lo_zero. Qed.
Theorem C52_kernel_stack (L : lop F) sh insh (v : nat -> point F -> point F -> F) idx n k :
  mk_stack sh (map (fun m => KLeaf insh [] [] (fun x y _ _ => v m x y)) (seq 0 (size sh))) idx = Ok k ->
  lo_dom L = insh -> lo_cod L = [] -> lo_out_dom L = insh -> lo_out_cod L = [] -> n = 1 - idx ->
  exists k', lo_kern L k n = Ok k' /\ k_in k' = insh /\ k_out0 k' = k_out0 k /\ k_out1 k' = k_out1 k /\
    let K := fun x y o q => let m := ravel sh (if idx =? 0 then o else q) in
      if n =? 0 then lo_act L (fun z _ => v m z y) x [] else lo_act L (fun z _ => v m x z) y [] in
    kern_call k' K /\ forall b0 b1, kern_linop k' K b0 b1.
Proof. apply (lo_leaves L sh insh v idx n k). Qed.
Theorem C52_kernel_validation (L : lop F) k n idx : validate (lo_dom L) (lo_cod L) k n <> Ok tt ->
  lo_kern L k n = Err ValueError /\ select_kern L idx k n = Err ValueError.
Proof.
  intros N. destruct (validate_err (lo_dom L) (lo_cod L) k n) as [E|E]; [congruence|]. unfold select_kern. rewrite E.
  split; [|reflexivity]. destruct k; cbn [lo_kern]; rewrite E; reflexivity.
Qed.
(** There is no rule for operators on the stacked side of a stack, on independent outputs
    and on transformed, stacked and parametric cross-covariances. *)
Theorem C52_unavailable (L : lop F) :
  (forall sh l idx k, mk_stack sh l idx = Ok k -> validate (lo_dom L) (lo_cod L) k idx = Ok tt -> lo_out_dom L = k_in k -> lo_kern L k idx = Err NotImplementedError) /\
  (forall l n, validate (lo_dom L) (lo_cod L) (KInd l) n = Ok tt -> lo_out_dom L = k_in (KInd l) -> lo_kern L (KInd l) n = Err NotImplementedError) /\
  (forall insh out rv rev v, lo_pv L (PLeaf insh out rv rev v) = Err NotImplementedError) /\
  (forall M p, lo_pv L (PLinOp M p) = Err NotImplementedError) /\
  (forall c insh m basis rev, lo_pv L (PParam c insh m basis rev) = Err NotImplementedError) /\
  (forall sh l, lo_pv L (PStack sh l) = Err NotImplementedError).
Proof.
  split; [|split; [|repeat split]].
  - intros sh l idx k M V E. unfold mk_stack in M. destruct l as [|c l]; [discriminate|].
    destruct (negb (forallb _ _)); [discriminate|]. destruct (negb (forallb _ _)); [discriminate|].
    destruct (negb _) eqn:I; [discriminate|]. injection M as <-. cbn [lo_kern]. rewrite V. cbn [bind]. rewrite E, shape_eqb_refl. cbn [negb].
    destruct idx as [|[|idx]]; [reflexivity|reflexivity|discriminate].
  - intros l n V E. cbn [lo_kern]. rewrite V. cbn [bind]. now rewrite E, shape_eqb_refl.
Qed.
(** On a cross-covariance [k(x, X)] the operator acts on the first argument of [k]. *)
Theorem C52_evaluation1 (L : lop F) insh o0 o1 (v : kernel) e x b :
  validate (lo_dom L) (lo_cod L) (KLeaf insh o0 o1 v) 0 = Ok tt -> lo_out_dom L = insh ->
  mk_evalf (ev_dirac e) insh o1 (ev_X e) = Ok e -> (ev_dirac e = false \/ ev_cod e = [] \/ ev_batch e = []) -> nshape x = b ++ insh ->
  exists p, lo_pv L (PEval (KLeaf insh o0 o1 v) e false) = Ok p /\ p_out p = lo_out_cod L /\ p_rv p = ev_out e /\ p_rev p = false /\
    pv_shows p x b (fun i o r => lo_act L (fun z q => v z (pt (ev_X e) (ev_point e r)) q (ev_output e r)) (pt x i) o).
Proof.
  intros V E HE P Ex. destruct (lo_leaf L insh o0 o1 v 0 V E) as [k [Ek [EI [E0 [E1 [HC HL]]]]]]. cbn [lo_pv]. rewrite Ek. cbn [bind].
  eexists. split; [reflexivity|]. cbn [p_out p_rv p_rev]. split; [exact E0|]. split; [reflexivity|]. split; [reflexivity|].
  cbn [Nat.eqb] in *. apply (eval1_shows k _ e x b HC (HL b (ev_batch e))); rewrite ?EI, ?E1; assumption.
Qed.
(** On [k(X, x)] it always fails. *)
Theorem C52_evaluation0_refuted (L : lop F) (k : kfun F) e : lo_pv L (PEval k e true) = Err TypeError.
Proof. reflexivity. Qed.
Theorem C52_zero (L : lop F) insh out rv rev : lo_pv L (PZero insh out rv rev) = Ok (PZero (lo_out_dom L) (lo_out_cod L) rv rev).
Proof. reflexivity. Qed.
Theorem C52_scaled (L : lop F) c p p' x b g : lo_pv L p = Ok p' -> pv_shows p' x b g ->
  exists q, lo_pv L (PScaled c p) = Ok q /\ p_out q = p_out p' /\ p_rv q = p_rv p' /\ p_rev q = p_rev p' /\ pv_shows q x b (fun i o r => fmul c (g i o r)).
Proof.
  intros E H. cbn [lo_pv]. rewrite E. cbn [bind]. eexists. split; [reflexivity|]. split; [reflexivity|]. split; [reflexivity|]. split; [reflexivity|]. now apply scaled_shows.
Qed.
Theorem C52_sum (L : lop F) l l' p p' x b gs : mk_sum l = Ok p -> Forall2 (fun c c' => lo_pv L c = Ok c') l l' -> mk_sum l' = Ok p' ->
  Forall2 (fun q g => pv_shows q x b g) l' gs ->
  lo_pv L p = Ok p' /\ pv_shows p' x b (fun i o r => fsum (map (fun g => g i o r) gs)).
Proof.
  intros M H M' S. split; [|now apply (sum_shows LF l' p' x b gs)]. destruct (mk_sum_is l p M) as [_ [_ [_ [-> _]]]].
  change (lo_pv L (PSum l)) with (bind (mapR (lo_pv L) l) mk_sum).
  assert (E : mapR (lo_pv L) l = Ok l'); [|now rewrite E]. clear -H. induction H as [|c c' l l' Hc H IH]; [reflexivity|]. cbn [mapR]. rewrite Hc. cbn [bind]. now rewrite IH.
Qed.
End P.

(** ** Counterexamples and instances *)
Definition qz (z : Z) : QcF := Q2Qc (inject_Z z).
Definition vec (l : list Z) : nd QcF := Nd [length l] (fun i => qz (nth (nth 0 i 0) l 0%Z)).
Definition matz (r c : nat) (l : list Z) : mat QcF := mkmat r c (fun i j => qz (nth (i * c + j) l 0%Z)).
Lemma qc_neq (a b : QcF) : Qeq_bool (this a) (this b) = false -> a <> b.
Proof. intros H E. rewrite E in H. assert (Qeq_bool (this b) (this b) = true) as T by (apply Qeq_bool_iff; reflexivity). congruence. Qed.
Ltac differ H := revert H; apply qc_neq; vm_compute; reflexivity.

(** [x * y] and [x * x * y] on scalar points. *)
Definition prod_kern : kfun QcF := KLeaf [] [] [] (fun x y _ _ => fmul (x []) (y [])).
Definition skew_kern : kfun QcF := KLeaf [] [] [] (fun x y _ _ => fmul (fmul (x []) (x [])) (y [])).
(** Two outputs: [o], [q] scale the points. *)
Definition out_kern : kfun QcF :=
  KLeaf [] [] [2] (fun x y _ q => fmul (x []) (fadd (y []) (qz (10 * Z.of_nat (nth 0 q 0))))).
Definition ev23 : evalf QcF := mkevalf false [] [] (vec [2; 3]%Z).
Definition dirac_out : evalf QcF := mkevalf true [] [2] (vec [2; 3]%Z).

Theorem C30_stack_jax_refuted : exists (l : list (kfun QcF)) k x a a', mk_stack [2] l 0 = Ok k /\ length l = size [2] /\
  k_call k x None = Ok a /\ k_jax k x None = Ok a' /\ nshape a' = nshape a /\ nat_ a [0; 1] <> nat_ a' [0; 1].
Proof.
  exists [prod_kern; skew_kern], (KStack [2] [prod_kern; skew_kern] 0), (vec [2]%Z). do 2 eexists.
  do 5 (split; [reflexivity|]). intros H. differ H.
Qed.
Theorem C31_argument0_refuted : exists (e : evalf QcF) x a m, mk_evalf false [] [] (ev_X e) = Ok e /\ nshape x = [1] ++ k_in skew_kern /\
  p_call (PEval skew_kern e true) x = Ok a /\ p_linop (PEval skew_kern e true) x = Ok m /\
  let g := fun (i o r : index) => fmul (fmul (pt (ev_X e) r []) (pt (ev_X e) r [])) (pt x i []) in
  cross_matrix m true [1] [] [2] g /\ ~ cross_array a true [1] [] [2] g.
Proof.
  exists ev23, (vec [5]%Z).
  destruct (C31_argument0 skew_kern (fun x y _ _ => fmul (fmul (x []) (x [])) (y [])) ev23 (vec [5]%Z) [1]) as [_ [_ [[a [Ea _]] HM]]];
    [apply leaf_kern|reflexivity|reflexivity|].
  destruct HM as [m [Em Hm]]; [apply leaf_kern_linop|now left|]. exists a, m. split; [reflexivity|]. split; [reflexivity|].
  split; [exact Ea|]. split; [exact Em|]. split; [exact Hm|]. intros [_ V]. injection Ea as <-.
  specialize (V [0] [] [0] (valid1 1 0 ltac:(lia)) (Forall2_nil _) (valid1 2 0 ltac:(lia))). differ V.
Qed.
(** A [DiracFunctional] at several points of a process with several outputs: the array
    is point-major, as its output shape says, the operator is output-major. *)
Theorem C31_dirac_layout_refuted : exists (e : evalf QcF) x a m, mk_evalf true [] [2] (ev_X e) = Ok e /\ nshape x = [1] ++ k_in out_kern /\
  p_call (PEval out_kern e false) x = Ok a /\ p_linop (PEval out_kern e false) x = Ok m /\
  exists g, cross_array a false [1] [] [2; 2] g /\ ~ cross_matrix m false [1] [] [2; 2] g.
Proof.
  exists dirac_out, (vec [5]%Z).
  destruct (C31_argument1 out_kern (fun x y _ q => fmul (x []) (fadd (y []) (qz (10 * Z.of_nat (nth 0 q 0))))) dirac_out (vec [5]%Z) [1]) as [_ [[a [Ea Ha]] _]];
    [apply leaf_kern|reflexivity|reflexivity|].
  exists a. eexists. split; [reflexivity|]. split; [reflexivity|]. split; [exact Ea|]. split; [reflexivity|].
  eexists. split; [exact Ha|]. intros H. apply cross_matrix_entry in H as [_ V].
  specialize (V [0] [] [0; 1] (valid1 1 0 ltac:(lia)) (Forall2_nil _) (valid2 2 2 0 1 ltac:(lia) ltac:(lia))). differ V.
Qed.
Theorem C32_linear_refuted : exists (A : mat QcF) (p q : pvcc QcF) x g m, mk_plinop A p = Ok q /\ pv_shows p x [2] g /\ p_linop q x = Ok m /\
  nrows m = 2 /\ ncols m = 2 /\
  ~ cross_matrix m (p_rev q) [2] (p_out q) (p_rv q) (fun i o r => fsum (map (fun k => fmul (entry A (nth 0 r 0) k) (g i o [k])) (seq 0 (ncols A)))).
Proof.
  exists (matz 2 2 [1; 1; 0; 1]%Z), (PEval skew_kern ev23 false). do 1 eexists. exists (vec [5; 7]%Z). do 2 eexists.
  split; [reflexivity|]. split.
  { apply (eval1_shows skew_kern (fun x y _ _ => fmul (fmul (x []) (x [])) (y [])) ev23 (vec [5; 7]%Z) [2]);
      [apply leaf_kern|apply leaf_kern_linop|reflexivity|now left|reflexivity]. }
  split; [reflexivity|]. split; [reflexivity|]. split; [reflexivity|]. intros H. apply cross_matrix_entry in H as [_ V].
  specialize (V [0] [] [0] (valid1 2 0 ltac:(lia)) (Forall2_nil _) (valid1 2 0 ltac:(lia))). differ V.
Qed.
(** Other sizes raise. *)
Example linear_raises : exists q, mk_plinop (matz 2 2 [1; 1; 0; 1]%Z) (PEval skew_kern ev23 false) = Ok q /\
  (exists a, p_call q (vec [5; 7; 8]%Z) = Ok a) /\ p_linop q (vec [5; 7; 8]%Z) = Err ValueError.
Proof. eexists. split; [reflexivity|]. split; [eexists; reflexivity|reflexivity]. Qed.
(** Without [reverse] the random vector is the second axis of the covariance, but the
    first one is used. *)
Theorem C32_parametric_refuted : exists (c : covariance QcF) h x a, shows c [2] [2] h /\
  p_call (PParam c [] 2 (fun x k => if k =? 0 then x [] else f1) false) x = Ok a /\
  ~ cross_array a false [1] [] [2] (fun i _ r =>
      fsum (map (fun k => fmul (h [k] r) (if k =? 0 then pt x i [] else f1)) (seq 0 2))).
Proof.
  destruct (array_cov_shows (nd_of_mat (matz 2 2 [1; 2; 3; 4]%Z)) [2] [2] eq_refl) as [c [Ec Hc]]. injection Ec as <-.
  do 2 eexists. exists (vec [5]%Z). eexists. split; [exact Hc|]. split; [reflexivity|]. intros [_ V].
  specialize (V [0] [] [0] (valid1 1 0 ltac:(lia)) (Forall2_nil _) (valid1 2 0 ltac:(lia))). differ V.
Qed.

(** Functionals with several outputs and points: the layouts collide. *)
Theorem C51_evaluation_layout_refuted : forall (F : fops) (L : lfun F) insh out0 out1 (v : point F -> point F -> index -> index -> F) (e : evalf F),
  lf_dom L = insh -> lf_cod L = out0 -> mk_evalf false insh out1 (ev_X e) = Ok e ->
  ev_cod e ++ ev_batch e <> ev_batch e ++ ev_cod e ->
  f_kern (FEval e) (KLeaf insh out0 out1 v) 1 = Ok (PEval (KLeaf insh out0 out1 v) e false) /\
  f_pv (FLeaf L) (PEval (KLeaf insh out0 out1 v) e false) = Err ValueError.
Proof.
  intros F L insh out0 out1 v e ED EC HE N. destruct (ev_is _ _ _ _ _ HE) as [Ee SX].
  assert (Ec : ev_cod e = out1) by (rewrite Ee; reflexivity). assert (D : ev_dirac e = false) by (rewrite Ee; reflexivity).
  assert (Ed : ev_dom e = insh) by (rewrite Ee; reflexivity). split.
  { rewrite eval_kern. rewrite (proj2 (validate_ok (ev_dom e) (ev_cod e) _ 1)); [reflexivity|]. cbn. auto. }
  cbn [f_pv lf_pv lf_kern]. unfold validate. cbn [k_in k_out0 k_out1 Nat.eqb orb negb]. rewrite ED, EC, !shape_eqb_refl. cbn [negb bind].
  destruct (leaf_shows insh out1 (lf_out L) true (fun z o r => lf_act L (fun y q => v y z q o) r) (ev_X e) (ev_batch e) SX) as [_ [[a [-> [Sa _]]] _]].
  cbn [bind p_rev p_out p_rv] in *. apply array_cov_err. rewrite Sa. unfold ev_out. rewrite D, Ec in *. intros H. apply app_inv_head in H. congruence.
Qed.
Example C51_evaluation_layout_instance : exists (L : lfun QcF) (e : evalf QcF), lf_dom L = [] /\ lf_cod L = [] /\
  mk_evalf false [] [2] (ev_X e) = Ok e /\ ev_cod e ++ ev_batch e <> ev_batch e ++ ev_cod e /\
  f_pv (FLeaf L) (PEval out_kern e false) = Err ValueError.
Proof.
  exists (mklfun [] [] [] (fun f (_ : index) => f (fun _ => f1) [])), (mkevalf false [] [2] (vec [2; 3; 4]%Z)).
  split; [reflexivity|]. split; [reflexivity|]. split; [reflexivity|]. split; [discriminate|reflexivity].
Qed.
(** A [DiracFunctional] of a cross-covariance with several outputs: output-major entries
    under point-major shapes. *)
Theorem C51_dirac_layout_refuted : exists (v : point QcF -> index -> index -> QcF) e c a,
  mk_evalf true [] [2] (ev_X e) = Ok e /\ f_pv (FEval e) (PLeaf [] [2] [1] false v) = Ok c /\
  carray c = Ok a /\ nshape a = [2; 2; 1] /\ nat_ a [0; 1; 0] <> v (pt (ev_X e) [0]) [1] [0].
Proof.
  exists (fun y o _ => fadd (y []) (qz (10 * Z.of_nat (nth 0 o 0)))), dirac_out. do 2 eexists.
  do 4 (split; [reflexivity|]). intros H. differ H.
Qed.

(** Instances of the hypotheses. *)
Example ex_C30_ind : exists k, mk_ind [prod_kern; skew_kern] = Ok k /\
  kern_call k (fun x y o q => if nth 0 o 0 =? nth 0 q 0 then (if nth 0 o 0 =? 0 then fmul (x []) (y []) else fmul (fmul (x []) (x [])) (y [])) else f0).
Proof.
  eexists. split; [reflexivity|].
  apply (C30_independent [prod_kern; skew_kern] _ (fun n x y _ _ => if n =? 0 then fmul (x []) (y []) else fmul (fmul (x []) (x [])) (y [])) eq_refl).
  intros [|[|n]] c Hc; try (injection Hc as <-); [apply leaf_kern|apply leaf_kern|now destruct n].
Qed.
Example ex_C30_value : exists k a, mk_ind [prod_kern; skew_kern] = Ok k /\ k_call k (vec [2; 3]%Z) None = Ok a /\
  nshape a = [2; 2; 2] /\ this (nat_ a [1; 1; 1]) = 27%Q /\ this (nat_ a [1; 0; 1]) = 0%Q.
Proof. do 2 eexists. split; [reflexivity|]. split; [reflexivity|]. repeat split. Qed.
Example ex_C30_stack_linop : exists k m, mk_stack [2] [prod_kern; skew_kern] 0 = Ok k /\ k_linop k (vec [2; 3]%Z) (Some (vec [5]%Z)) = Ok m /\
  nrows m = 4 /\ ncols m = 1 /\ map (fun i => this (entry m i 0)) (seq 0 4) = [10%Q; 15%Q; 20%Q; 45%Q].
Proof. do 2 eexists. split; [reflexivity|]. split; [reflexivity|]. repeat split. Qed.
Example ex_C30_select : exists k k' a, mk_ind [prod_kern; skew_kern] = Ok k /\
  select_kern (mklop [] [2] [] [] (fun f x _ => f x [1])) [1] k 0 = Ok k' /\
  k_call k' (vec [3]%Z) None = Ok a /\ nshape a = [1; 2] /\ map (fun i => this (nat_ a [0; i])) (seq 0 2) = [0%Q; 27%Q].
Proof. do 3 eexists. do 3 (split; [reflexivity|]). repeat split. Qed.
Example ex_C31 : exists a m, p_call (PEval skew_kern ev23 false) (vec [5; 7]%Z) = Ok a /\ p_linop (PEval skew_kern ev23 false) (vec [5; 7]%Z) = Ok m /\
  this (nat_ a [1; 0]) = 98%Q /\ this (entry m 1 0) = 98%Q.
Proof. do 2 eexists. do 2 (split; [reflexivity|]). split; reflexivity. Qed.
Example ex_C31_symmetric : pv_shows (PEval prod_kern ev23 true) (vec [5; 7; 11]%Z) [3]
  (fun i o r => fmul (pt (ev_X ev23) (ev_point ev23 r) []) (pt (vec [5; 7; 11]%Z) i [])).
Proof.
  apply (C31_argument0_symmetric prod_kern (fun x y _ _ => fmul (x []) (y [])));
    [apply leaf_kern|apply leaf_kern_linop|reflexivity|now left| |reflexivity].
  intros. apply Qcmult_comm.
Qed.
Example ex_C31_both : exists p c a, f_kern (FEval ev23) skew_kern 0 = Ok p /\
  f_pv (FEval (mkevalf false [] [] (vec [5; 7; 8]%Z))) p = Ok c /\ carray c = Ok a /\ nshape a = [2; 3] /\ this (nat_ a [1; 2]) = 72%Q.
Proof. do 3 eexists. do 3 (split; [reflexivity|]). split; reflexivity. Qed.
(** [A @ (2 * p - q)] with the random vector first. *)
Example ex_C32 : exists s q a m, p_sub (p_rmul (qz 2) (PEval prod_kern ev23 true)) (PLeaf [] [] [2] true (fun y _ r => fadd (y []) (qz (Z.of_nat (nth 0 r 0))))) = Ok s /\
  mk_plinop (matz 1 2 [1; 10]%Z) s = Ok q /\ p_call q (vec [5; 7; 8]%Z) = Ok a /\ p_linop q (vec [5; 7; 8]%Z) = Ok m /\
  nshape a = [1; 3] /\ this (nat_ a [0; 1]) = 361%Q /\ this (entry m 0 1) = 361%Q.
Proof. do 4 eexists. do 4 (split; [reflexivity|]). repeat split. Qed.
Example ex_C32_stack : exists p a m, mk_pstack [2] [PEval prod_kern ev23 false; PEval skew_kern ev23 false] = Ok p /\
  p_call p (vec [5; 7; 8]%Z) = Ok a /\ p_linop p (vec [5; 7; 8]%Z) = Ok m /\ nshape a = [3; 2; 2] /\
  this (nat_ a [1; 1; 0]) = 98%Q /\ nrows m = 6 /\ this (entry m 4 0) = 98%Q.
Proof. do 3 eexists. do 3 (split; [reflexivity|]). repeat split. Qed.
(** The sum functional [f 1 + f 2] of [2 * k(x, X)] after a matrix. *)
Definition sum_functl : lfun QcF := mklfun [] [] [1] (fun f _ => fadd (f (fun _ => f1) []) (f (fun _ => qz 2) [])).
Example ex_C51 : exists f c a, mk_fcomp (matz 2 1 [1; 10]%Z) (FLeaf sum_functl) = Ok f /\
  f_pv f (PScaled (qz 2) (PEval skew_kern ev23 false)) = Ok c /\ carray c = Ok a /\ nshape a = [2; 2] /\
  this (nat_ a [1; 1]) = 300%Q.
Proof. do 3 eexists. do 3 (split; [reflexivity|]). split; reflexivity. Qed.
Example ex_C51_kernel : exists k p a, mk_stack [2] [prod_kern; skew_kern] 0 = Ok k /\ f_kern (FLeaf sum_functl) k 1 = Ok p /\
  p_call p (vec [5; 7; 8]%Z) = Ok a /\ nshape a = [3; 2; 1] /\ this (nat_ a [1; 1; 0]) = 147%Q.
Proof. do 3 eexists. do 3 (split; [reflexivity|]). split; reflexivity. Qed.
(** The shift [f(. + 1)]. *)
Definition shift_op : lop QcF := mklop [] [] [] [] (fun f x o => f (fun i => fadd (x i) f1) o).
Example ex_C52 : exists p a, lo_pv shift_op (PScaled (qz 2) (PEval skew_kern ev23 false)) = Ok p /\
  p_call p (vec [5; 7]%Z) = Ok a /\ this (nat_ a [1; 0]) = 256%Q.
Proof. do 2 eexists. do 2 (split; [reflexivity|]). reflexivity. Qed.
Example ex_C52_stack : exists k k' a, mk_stack [2] [prod_kern; skew_kern] 1 = Ok k /\ lo_kern shift_op k 0 = Ok k' /\
  k_call k' (vec [5]%Z) (Some (vec [2]%Z)) = Ok a /\ nshape a = [1; 2] /\ this (nat_ a [0; 1]) = 72%Q.
Proof. do 3 eexists. do 3 (split; [reflexivity|]). split; reflexivity. Qed.

Print Assumptions C30_independent.
Print Assumptions C30_independent_jax.
Print Assumptions C30_independent_linop.
Print Assumptions C30_stack.
Print Assumptions C30_stack_linop.
Print Assumptions C30_stack_jax_zero.
Print Assumptions C30_constructors.
Print Assumptions C30_select_stack.
Print Assumptions C30_select_independent.
Print Assumptions C31_argument1.
Print Assumptions C31_argument0.
Print Assumptions C31_both.
Print Assumptions C31_function.
Print Assumptions C32_views.
Print Assumptions C32_add.
Print Assumptions C32_sum.
Print Assumptions C32_linear.
Print Assumptions C32_stack.
Print Assumptions C32_parametric.
Print Assumptions C51_evaluation.
Print Assumptions C51_composite.
Print Assumptions C51_kernel_stack.
Print Assumptions C52_kernel_stack.
Print Assumptions C52_evaluation1.
Print Assumptions C52_sum.
