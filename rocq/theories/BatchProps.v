(** C57: evaluation of covariance functions at arrays of points. *)
From Coq Require Import List Reals Bool Arith ZArith Lia Lra.
From Verif Require Import Base NdArray NdData PolyModel PolyClassModel BlockModel CovModel CovSpec CrossModel CrossSpec CrossProofs CrossKern ShapedModel ShapedProofs ShapedProps LfoProofs DtypeModel DtypeProps
  PolyCalc FunExprModel DiffopModel LfoModel KernelModel KernelSound KernelProps MaternPoly MaternKernelProps BatchModel BatchSpec BatchProofs BatchEval.
Import ListNotations.
Open Scope R_scope.

(** Covariance functions over points of shape [sh] whose parts can be evaluated with [m]:
    [z] says that both arrays hold integers, [u] that one of them does, [one] that there is
    one pair of numbers.  With NumPy, distances between integers are probnum's; JAX has no
    Bessel functions; objects are as their constructors make them. *)
Inductive supported (m : mode) (sc z u : bool) (one : Prop) (sh : shape) : cov -> Prop :=
| sp_exp e : eq_shape e = sh -> lens_ok sc sh (eq_len e) -> m = Jax \/ z = false -> supported m sc z u one sh (CExp e)
| sp_dir e v r : eq_shape e = sh -> lens_ok sc sh (eq_len e) -> supported m sc z u one sh (CExpDir e v r)
| sp_dirdir e v v' : eq_shape e = sh -> lens_ok sc sh (eq_len e) -> supported m sc z u one sh (CExpDirDir e v v')
| sp_lap e w r : eq_shape e = sh -> lens_ok sc sh (eq_len e) -> supported m sc z u one sh (CExpLap e w r)
| sp_laplap e w w' : eq_shape e = sh -> lens_ok sc sh (eq_len e) -> supported m sc z u one sh (CExpLapLap e w w')
| sp_dirlap e v w r : eq_shape e = sh -> lens_ok sc sh (eq_len e) -> m = Jax \/ z = false -> supported m sc z u one sh (CExpDirLap e v w r)
| sp_mat k : mt_shape k = sh -> lens_ok sc sh (mt_len k) -> m = Jax \/ z = false -> (m = NumPy \/ exists p, mt_nu k = HalfInt p) -> supported m sc z u one sh (CMat k)
| sp_mdir k v r q : mt_shape k = sh -> lens_ok sc sh (mt_len k) -> m = Jax \/ z = false \/ one -> py_valid q -> supported m sc z u one sh (CMatDir k v r q)
| sp_mdirdir k v v' q q' : mt_shape k = sh -> lens_ok sc sh (mt_len k) -> m = Jax \/ z = false \/ one -> py_valid q -> py_valid q' -> supported m sc z u one sh (CMatDirDir k v v' q q')
| sp_udirdir k v v' q : mt_shape k = sh -> lens_ok sc sh (mt_len k) -> m = Jax \/ z = false -> size sh = 1%nat -> py_valid q -> supported m sc z u one sh (CUMatDirDir k v v' q)
| sp_ulap k w r q : mt_shape k = sh -> lens_ok sc sh (mt_len k) -> m = Jax \/ z = false -> size sh = 1%nat -> py_valid q -> supported m sc z u one sh (CUMatLap k w r q)
| sp_ulaplap k w w' q : mt_shape k = sh -> lens_ok sc sh (mt_len k) -> m = Jax \/ z = false -> size sh = 1%nat -> py_valid q -> supported m sc z u one sh (CUMatLapLap k w w' q)
| sp_udirlap k v w r q : mt_shape k = sh -> lens_ok sc sh (mt_len k) -> m = Jax \/ z = false \/ one -> py_valid q -> supported m sc z u one sh (CUMatDirLap k v w r q)
| sp_scaled s c : supported m sc z u one sh c -> supported m sc z u one sh (CScaled s c)
| sp_sum c cs : (forall c', In c' (c :: cs) -> supported m sc z u one sh c') -> supported m sc z u one sh (CSum (c :: cs))
| sp_jax f : u = false -> supported m sc z u one sh (CJax sh f).
Lemma supported_shape m sc z u one sh c : supported m sc z u one sh c -> c_shape c = sh.
Proof. induction 1; cbn; auto. now apply H0; left. Qed.

(** Sums *)
Lemma fold_add b (as_ : list tnd) (hs : list (index -> R)) : Forall2 (fun a h => holds Kb b [] a (fun i _ => h i)) as_ hs ->
  forall a h, holds Kb b [] a (fun i _ => h i) ->
  exists c, fold_left (fun acc b => bind acc (fun a => tbin Rplus a b)) as_ (Ok a) = Ok c /\ holds Kb b [] c (fun i _ => h i + rsum (map (fun g => g i) hs)).
Proof.
  induction 1 as [|a' h' as_ hs H F IH]; intros a h A; cbn [fold_left map].
  - exists a. split; [reflexivity|]. eapply holds_ext; [exact A|]. intros. unfold rsum; cbn. ring.
  - destruct (tbin_holds Rplus _ _ _ _ _ _ _ _ _ _ A H) as (c & E & C). cbn [bind kmax andb] in *. rewrite E.
    destruct (IH c (fun i => h i + h' i) C) as (c' & E' & C'). exists c'. split; [exact E'|]. eapply holds_ext; [exact C'|]. intros. unfold rsum; cbn. ring.
Qed.
Lemma sum_holds b (call : cov -> result tnd) (val : cov -> index -> R) cs : cs <> [] ->
  (forall c, In c cs -> exists a, call c = Ok a /\ holds Kb b [] a (fun i _ => val c i)) ->
  exists a, bind (mapR call cs) reduce_add = Ok a /\ holds Kb b [] a (fun i _ => rsum (map (fun c => val c i) cs)).
Proof.
  intros N H.
  assert (X : exists l, mapR call cs = Ok l /\ Forall2 (fun a h => holds Kb b [] a (fun i _ => h i)) l (map val cs)).
  { clear N. induction cs as [|c cs IH]; [exists []; split; [reflexivity|constructor]|]. destruct (H c (or_introl eq_refl)) as (a & E & A).
    destruct IH as (l & E' & F); [intros; apply H; now right|]. exists (a :: l). cbn. rewrite E. cbn [bind]. rewrite E'. split; [reflexivity|now constructor]. }
  destruct X as (l & -> & F). cbn [bind]. destruct cs as [|c cs]; [congruence|]. cbn [map] in F. inversion F as [|a h l' hs A F' E1 E2]; subst. cbn [reduce_add].
  destruct (fold_add b l' (map val cs) F' a (val c) A) as (z & E & Z). exists z. split; [exact E|]. eapply holds_ext; [exact Z|]. intros i j _ _. cbn [map]. rewrite map_map. reflexivity.
Qed.

Lemma pairs_holds m sc x0 y b0 b1 b sh c : broadcast_shapes b0 b1 = Ok b -> t_shape x0 = b0 ++ sh -> t_shape y = b1 ++ sh ->
  supported m sc (t_int x0 && t_int y) (t_int x0 || t_int y) (b ++ sh = []) sh c ->
  exists a, bcall m sc c x0 (Some y) = Ok a /\
    holds Kb b [] a (fun i _ => ceval c (pt (F := RF) (t_arr x0) (operand_index b0 i)) (pt (F := RF) (t_arr y) (operand_index b1 i))).
Proof.
  intros B S0 S1 H. assert (S := conj S0 S1).
  induction H as [e E L N|e v r E L|e v v' E L|e w r E L|e w w' E L|e v w r E L N|k E L N M|k v r q E L N V|k v v' q q' E L N V V'|k v v' q E L N Z V|k w r q E L N Z V|k w w' q E L N Z V|k v w r q E L N V|s c H IH|c cs H IH|f U];
    try subst sh; cbn [bcall c_shape].
  all: try (apply (checked_ok x0 y b0 b1 b B); [exact S|]).
  - now apply expquad_ok.
  - now apply expdir_ok.
  - now apply expdirdir_ok.
  - now apply explap_ok.
  - now apply explaplap_ok.
  - now apply expdirlap_ok.
  - now apply matern_ok.
  - now apply matdir_ok.
  - now apply matdirdir_ok.
  - now apply umatdirdir_ok.
  - now apply umatlap_ok.
  - now apply umatlaplap_ok.
  - now apply umatdirlap_ok.
  - rewrite (supported_shape _ _ _ _ _ _ _ H). apply (checked_ok x0 y b0 b1 b B _ _ (ceval (CScaled s c))); [exact S|]. destruct IH as (a & -> & A). cbn [bind].
    destruct (tbin_holds Rmult _ _ _ _ _ _ _ _ _ _ (num_holds s b []) A) as (z & -> & Z). eauto.
  - rewrite (supported_shape _ _ _ _ _ _ _ (H c (or_introl eq_refl))). apply (checked_ok x0 y b0 b1 b B _ _ (ceval (CSum (c :: cs)))); [exact S|].
    apply (sum_holds b (fun c' => bcall m sc c' x0 (Some y)) (fun c' i => ceval c' (pt (F := RF) (t_arr x0) (operand_index b0 i)) (pt (F := RF) (t_arr y) (operand_index b1 i)))); [discriminate|exact IH].
  - unfold lambda_b. cbv beta. rewrite U. cbn [option_map].
    destruct (leaf_eval_ok (F := RF) sh [] [] (fun p q _ _ => f p q) (t_arr x0) (Some (t_arr y)) b0 b1 b) as (a & -> & SA & VA); [split; assumption|exact B|].
    cbn [bind]. eexists. split; [reflexivity|]. split; [reflexivity|]. split; [exact SA|]. intros i j Hi Hj. apply valid_index_nil in Hj as ->. exact (VA i [] [] Hi Hj Hj) || exact (VA i [] [] Hi (Forall2_nil _) (Forall2_nil _)).
Qed.
Lemma holds_entries b a (g : index -> R) : holds Kb b [] a (fun i _ => g i) -> t_int a = false /\ entries (t_arr a) b g.
Proof.
  intros (I & S & V). cbn [kshape] in S. rewrite app_nil_r in S. split; [exact I|]. split; [exact S|]. intros i Hi.
  rewrite <- (V i [] Hi (Forall2_nil _)). cbn [kindex]. now rewrite app_nil_r.
Qed.

(** [k(x0, x1)] and [k.jax(x0, x1)] return floats; the entry at a broadcast index is the
    value at the two points it stands for. *)
Theorem C57_two_arrays : forall m sc c x0 x1 b0 b1 b sh,
  t_shape x0 = b0 ++ sh -> t_shape x1 = b1 ++ sh -> broadcast_shapes b0 b1 = Ok b ->
  supported m sc (t_int x0 && t_int x1) (t_int x0 || t_int x1) (b ++ sh = []) sh c ->
  exists a, bcall m sc c x0 (Some x1) = Ok a /\ t_int a = false /\
    entries (t_arr a) b (fun i => ceval c (pt (F := RF) (t_arr x0) (operand_index b0 i)) (pt (F := RF) (t_arr x1) (operand_index b1 i))).
Proof.
  intros m sc c x0 x1 b0 b1 b sh S0 S1 B H. destruct (pairs_holds m sc x0 x1 b0 b1 b sh c B S0 S1 H) as (a & E & A).
  exists a. split; [exact E|]. exact (holds_entries _ _ _ A).
Qed.

(** ** One array *)
Lemma checked_one s ev x0 b a g : t_shape x0 = b ++ s -> ev x0 None = Ok a -> holds Kb b [] a g -> checked s ev x0 None = Ok a.
Proof.
  intros S E (_ & SA & _). unfold checked. unfold t_shape in S.
  rewrite (check_ok s (t_arr x0) None b b b (conj S S) (broadcast_same b) : check_shapes s (t_arr x0) (option_map t_arr None) = _). cbn [bind]. rewrite E. cbn [bind].
  cbn [kshape] in SA. rewrite app_nil_r in SA. now rewrite SA, shape_eqb_refl.
Qed.
Lemma one_holds m sc x0 b sh c : t_shape x0 = b ++ sh -> t_int x0 = false -> supported m sc false false False sh c ->
  exists a, bcall m sc c x0 None = Ok a /\ holds Kb b [] a (fun i _ => cnone c (pt (F := RF) (t_arr x0) i)).
Proof.
  intros S I H.
  assert (W : forall ev g, (exists a, ev x0 None = Ok a /\ holds Kb b [] a g) -> exists a, checked sh ev x0 None = Ok a /\ holds Kb b [] a g).
  { intros ev g (a & E & A). exists a. split; [exact (checked_one _ _ _ _ _ _ S E A)|exact A]. }
  assert (D : forall k scale, mt_shape k = sh -> exists r, dists m (length (mt_shape k)) scale x0 None = Ok r /\ holds Kb b [] r (fun _ _ => 0)).
  { intros k scale E. rewrite E. unfold dists, sq_dists. rewrite I. exists (like (length sh) x0 0). split; [now destruct m|now apply like_holds]. }
  induction H as [e E L N|e v r E L|e v v' E L|e w r E L|e w w' E L|e v w r E L N|k E L N M|k v r q E L N V|k v v' q q' E L N V V'|k v v' q E L N Z V|k w r q E L N Z V|k w w' q E L N Z V|k v w r q E L N V|s c H IH|c cs H IH|f U];
    cbn [bcall c_shape cnone]; rewrite ?E; try apply W; cbv beta.
  - unfold expquad_b. rewrite E. eexists. split; [reflexivity|now apply like_holds].
  - unfold expdir_b. rewrite E. eexists. split; [reflexivity|now apply like_holds].
  - unfold expdirdir_b. rewrite <- E in L. destruct (inprod_ok sc e v v' L) as (ip & -> & Q & _). cbn [bind]. rewrite Q, E. eexists. split; [reflexivity|now apply like_holds].
  - unfold explap_b. rewrite <- E in L. destruct (trace_ok sc e w L) as (tr & -> & Q & _). cbn [bind]. rewrite Q, E. eexists. split; [reflexivity|now apply like_holds].
  - unfold explaplap_b. rewrite <- E in L. destruct (trace_ok sc e w L) as (tr & -> & Q & _). destruct (trace_ok sc e w' L) as (tr' & -> & Q' & _).
    destruct (laptrace_ok sc e w w' L) as (trr & -> & Q'' & _). cbn [bind]. rewrite Q, Q', Q'', E. eexists. split; [reflexivity|now apply like_holds].
  - unfold expdirlap_b. rewrite E. eexists. split; [reflexivity|now apply like_holds].
  - unfold matern_b. destruct (D k (mt_scale_t sc k) E) as (r & -> & R0). cbn [bind]. exact (profile_ok m b (mt_nu k) r _ M R0).
  - unfold matdir_b. rewrite E. eexists. split; [reflexivity|now apply like_holds].
  - unfold matdirdir_b. rewrite <- E in L. destruct (dirs_ok sc k v L) as (s0 & -> & D0). destruct (dirs_ok sc k v' L) as (s1 & -> & D1). cbn [bind].
    destruct (dirprod_ok k v v' s0 s1 (D0 []) (D1 [])) as (s01 & -> & IP). cbn [bind]. unfold coeff0, py_valid in *. destruct (float_coeffs q) as [|z l]; [congruence|].
    destruct (IP [] []) as (_ & _ & Q). pose proof (Q [] [] (Forall2_nil _) (Forall2_nil _)) as Q'. cbn [kindex] in Q'. rewrite Q', E. eexists. split; [reflexivity|now apply like_holds].
  - unfold umatdirdir_b. rewrite <- E in L, Z. destruct (udirdir_ok sc k v v' Z L) as (p & p' & f & -> & E' & E'' & Q & _). cbn [bind]. rewrite E'. cbn [bind]. rewrite E''. cbn [bind].
    unfold coeff0, py_valid in *. destruct (float_coeffs q) as [|z l]; [congruence|]. rewrite Q, E. eexists. split; [reflexivity|now apply like_holds].
  - unfold umatlap_b. destruct (D k (mt_scale_t sc k) E) as (r' & Er & R0). rewrite <- E in L, Z. destruct (ulap_ok sc k w Z L) as (p & p' & f & -> & E' & E'' & _ & F). cbn [bind]. rewrite E'. cbn [bind]. rewrite E''. cbn [bind].
    rewrite Er. cbn [bind]. repeat step b sh; intros; reflexivity.
  - unfold umatlaplap_b. destruct (D k (mt_scale_t sc k) E) as (r' & Er & R0). rewrite <- E in L, Z. destruct (ulaplap_ok sc k w w' Z L) as (p & p' & f & -> & E' & E'' & _ & F). cbn [bind]. rewrite E'. cbn [bind]. rewrite E''. cbn [bind].
    rewrite Er. cbn [bind]. repeat step b sh; intros; reflexivity.
  - unfold umatdirlap_b. rewrite E. eexists. split; [reflexivity|now apply like_holds].
  - rewrite (supported_shape _ _ _ _ _ _ _ H). apply W. destruct IH as (a & -> & A). cbn [bind].
    destruct (tbin_holds Rmult _ _ _ _ _ _ _ _ _ _ (num_holds s b []) A) as (z & -> & Z). eauto.
  - rewrite (supported_shape _ _ _ _ _ _ _ (H c (or_introl eq_refl))). apply W.
    apply (sum_holds b (fun c' => bcall m sc c' x0 None) (fun c' i => cnone c' (pt (F := RF) (t_arr x0) i))); [discriminate|exact IH].
  - unfold lambda_b. rewrite I. cbn [orb option_map].
    destruct (leaf_eval_ok (F := RF) sh [] [] (fun p q _ _ => f p q) (t_arr x0) None b b b) as (a & -> & SA & VA); [split; exact S|apply broadcast_same|].
    cbn [bind]. eexists. split; [reflexivity|]. split; [reflexivity|]. split; [exact SA|]. intros i j Hi Hj. apply valid_index_nil in Hj as ->.
    pose proof (VA i [] [] Hi (Forall2_nil _) (Forall2_nil _)) as Q. unfold leaf_value in Q. rewrite operand_index_id in Q by exact Hi. exact Q.
Qed.
Lemma supported_diag m sc z u one sh c : supported m sc z u one sh c -> forall x, cnone c x = ceval c x x.
Proof.
  induction 1; intros x; try solve [apply mat_diag; cbn [mat_obj]; auto]; try solve [apply (fam_diag sh); constructor; assumption].
  - cbn [cnone ceval]. now rewrite IHsupported.
  - cbn [cnone ceval]. f_equal. apply map_ext_in. intros c' Hc. now apply H0.
  - reflexivity.
Qed.
(** [k(x0, None)] at floats: the value of every point with itself. *)
Theorem C57_one_array : forall m sc c x0 b sh, t_shape x0 = b ++ sh -> t_int x0 = false -> supported m sc false false False sh c ->
  exists a, bcall m sc c x0 None = Ok a /\ t_int a = false /\
    entries (t_arr a) b (fun i => ceval c (pt (F := RF) (t_arr x0) i) (pt (F := RF) (t_arr x0) i)).
Proof.
  intros m sc c x0 b sh S I H. destruct (one_holds m sc x0 b sh c S I H) as (a & E & A). exists a. split; [exact E|]. apply holds_entries.
  eapply holds_ext; [exact A|]. intros i j _ _. now apply (supported_diag m sc false false False sh).
Qed.
(** At integers the value is converted to an integer, towards zero. *)
Definition filled (c : cov) : Prop := match c with
  | CExp _ | CExpDir _ _ _ | CExpDirDir _ _ _ | CExpLap _ _ _ | CExpLapLap _ _ _ | CExpDirLap _ _ _ _ | CMatDir _ _ _ _ | CMatDirDir _ _ _ _ _ | CUMatDirDir _ _ _ _ | CUMatDirLap _ _ _ _ _ => True
  | _ => False end.
Lemma like_int b s x0 r : t_int x0 = true -> t_shape x0 = b ++ s -> t_int (like (length s) x0 r) = true /\ entries (t_arr (like (length s) x0 r)) b (fun _ => IZR (trunc r)).
Proof. intros I S. unfold like. rewrite S, I, last_axes, firstn_app_l by reflexivity. now repeat split. Qed.
Lemma checked_like sh x0 b r : t_shape x0 = b ++ sh -> forall ev, ev x0 None = Ok (like (length sh) x0 r) -> checked sh ev x0 None = Ok (like (length sh) x0 r).
Proof.
  intros S ev E. unfold checked. pose proof S as S'. unfold t_shape in S'.
  rewrite (check_ok sh (t_arr x0) None b b b (conj S' S') (broadcast_same b) : check_shapes sh (t_arr x0) (option_map t_arr None) = _). cbn [bind]. rewrite E. cbn [bind].
  unfold like at 1. unfold t_shape at 1. cbn [t_arr nshape]. now rewrite S, last_axes, firstn_app_l, shape_eqb_refl by reflexivity.
Qed.
Theorem C57_one_integer_array : forall m sc c x0 b sh, t_shape x0 = b ++ sh -> t_int x0 = true -> supported m sc false false False sh c -> filled c ->
  exists a, bcall m sc c x0 None = Ok a /\ t_int a = true /\
    exists h, entries (t_arr a) b (fun i => IZR (h i)) /\ forall i, valid_index b i -> toward_zero (ceval c (pt (F := RF) (t_arr x0) i) (pt (F := RF) (t_arr x0) i)) (h i).
Proof.
  intros m sc c x0 b sh S I H Fc.
  assert (X : exists r, bcall m sc c x0 None = Ok (like (length sh) x0 r) /\ forall x, cnone c x = r).
  { destruct H as [e E L N|e v r E L|e v v' E L|e w r E L|e w w' E L|e v w r E L N|k E L N M|k v r q E L N V|k v v' q q' E L N V V'|k v v' q E L N Z V|k w r q E L N Z V|k w w' q E L N Z V|k v w r q E L N V|s c H|c cs H|f U];
    try contradiction; eexists; (split; [|intros x; cbn [cnone]; reflexivity]); cbn [bcall c_shape]; rewrite E; apply (checked_like _ _ _ _ S); cbv beta.
    - unfold expquad_b. now rewrite E.
    - unfold expdir_b. now rewrite E.
    - unfold expdirdir_b. rewrite <- E in L. destruct (inprod_ok sc e v v' L) as (ip & -> & Q & _). cbn [bind]. now rewrite Q, E.
    - unfold explap_b. rewrite <- E in L. destruct (trace_ok sc e w L) as (tr & -> & Q & _). cbn [bind]. now rewrite Q, E.
    - unfold explaplap_b. rewrite <- E in L. destruct (trace_ok sc e w L) as (tr & -> & Q & _). destruct (trace_ok sc e w' L) as (tr' & -> & Q' & _).
      destruct (laptrace_ok sc e w w' L) as (trr & -> & Q'' & _). cbn [bind]. now rewrite Q, Q', Q'', E.
    - unfold expdirlap_b. now rewrite E.
    - unfold matdir_b. now rewrite E.
    - unfold matdirdir_b. rewrite <- E in L. destruct (dirs_ok sc k v L) as (s0 & -> & D0). destruct (dirs_ok sc k v' L) as (s1 & -> & D1). cbn [bind].
      destruct (dirprod_ok k v v' s0 s1 (D0 []) (D1 [])) as (s01 & -> & IP). cbn [bind]. unfold coeff0, py_valid in *. destruct (float_coeffs q) as [|z l]; [congruence|].
      destruct (IP [] []) as (_ & _ & Q). pose proof (Q [] [] (Forall2_nil _) (Forall2_nil _)) as Q'. cbn [kindex] in Q'. now rewrite Q', E.
    - unfold umatdirdir_b. rewrite <- E in L, Z. destruct (udirdir_ok sc k v v' Z L) as (p & p' & f & -> & E' & E'' & Q & _). cbn [bind]. rewrite E'. cbn [bind]. rewrite E''. cbn [bind].
      unfold coeff0, py_valid in *. destruct (float_coeffs q) as [|z l]; [congruence|]. now rewrite Q, E.
    - unfold umatdirlap_b. now rewrite E. }
  destruct X as (r & E & C). exists (like (length sh) x0 r). split; [exact E|]. destruct (like_int b sh x0 r I S) as [J K]. split; [exact J|].
  exists (fun _ => trunc r). split; [exact K|]. intros i Hi. rewrite <- (supported_diag _ _ _ _ _ _ _ H), C. apply trunc_toward_zero.
Qed.
(** So the one-argument call is not the two-argument call at the same points. *)
Definition ex_eq : expquad := ExpQuad [] (fun _ => 2).
Definition ex_ints : tnd := T true (Nd [3%nat] (fun _ => 5)).
Theorem C57_one_integer_refuted : forall m sc, exists c, supported m sc true true False [] c /\
  exists a a', bcall m sc c ex_ints None = Ok a /\ bcall m sc c ex_ints (Some ex_ints) = Ok a' /\ entries (t_arr a) [3%nat] (fun _ => 0) /\ entries (t_arr a') [3%nat] (fun _ => 1 / 4).
Proof.
  intros m sc. exists (CExpDirDir ex_eq (fun _ => 1) (fun _ => 1)).
  assert (L : lens_ok sc [] (eq_len ex_eq)) by (intros _ j _; reflexivity).
  assert (V : forall x, ceval (CExpDirDir ex_eq (fun _ => 1) (fun _ => 1)) x x = 1 / 4).
  { intros x. rewrite <- (supported_diag m sc false false False []) by now constructor. cbn [cnone]. unfold expdirdir_inprod, bsum. cbn. lra. }
  split; [now constructor|].
  destruct (C57_one_integer_array m sc (CExpDirDir ex_eq (fun _ => 1) (fun _ => 1)) ex_ints [3%nat] [] eq_refl eq_refl) as (a & E & _ & h & [S K] & T); [now constructor|exact I|].
  destruct (C57_two_arrays m sc (CExpDirDir ex_eq (fun _ => 1) (fun _ => 1)) ex_ints ex_ints [3%nat] [3%nat] [3%nat] [] eq_refl eq_refl eq_refl) as (a' & E' & _ & [S' K']); [now constructor|].
  exists a, a'. split; [exact E|]. split; [exact E'|]. split; (split; [assumption|]); intros i Hi.
  - rewrite (K i Hi). specialize (T i Hi). rewrite V in T. assert (h i = 0%Z) as ->; [|reflexivity].
    apply (toward_zero_unique (1/4)); [exact T|]. split; [rewrite Rabs_R0, Rabs_pos_eq; lra|lra].
  - rewrite (K' i Hi). apply V.
Qed.

(** Matérn derivatives at two arrays of integers: NumPy refuses the in-place update. *)
Definition updates (c : cov) : Prop := match c with CMatDir _ _ _ _ | CMatDirDir _ _ _ _ _ | CUMatDirLap _ _ _ _ _ => True | _ => False end.
Theorem C57_matern_integers_refuted : forall sc c x0 x1 b0 b1 b sh, t_shape x0 = b0 ++ sh -> t_shape x1 = b1 ++ sh -> broadcast_shapes b0 b1 = Ok b ->
  supported NumPy sc false false False sh c -> updates c -> t_int x0 = true -> t_int x1 = true -> b ++ sh <> [] ->
  bcall NumPy sc c x0 (Some x1) = Err TypeError.
Proof.
  intros sc c x0 x1 b0 b1 b sh S0 S1 B H U I0 I1 N.
  destruct (diffs_holds x0 x1 b0 b1 b sh S0 S1 B) as (d & Ed & Id & Sd & _). rewrite I0, I1 in Id. cbn [andb] in Id. cbn [kshape] in Sd.
  assert (X : forall k, lens_ok sc (mt_shape k) (mt_len k) -> inplace NumPy Rmult d (mt_scale_t sc k) = Err TypeError).
  { intros k L. unfold inplace. rewrite Sd. destruct (b ++ sh) as [|n l]; [congruence|]. rewrite Id. reflexivity. }
  unfold t_shape in S0, S1.
  assert (C : forall ev, ev x0 (Some x1) = Err TypeError -> checked sh ev x0 (Some x1) = Err TypeError).
  { intros ev E. unfold checked. rewrite (check_ok sh (t_arr x0) (Some (t_arr x1)) b0 b1 b (conj S0 S1) B : check_shapes sh (t_arr x0) (option_map t_arr (Some x1)) = _). cbn [bind]. now rewrite E. }
  destruct H as [| | | | | | |k v r q E L _ V|k v v' q q' E L _ V V'| | | |k v w r q E L _ V| | |]; try contradiction; cbn [bcall c_shape]; rewrite E; apply C; rewrite <- E in L.
  - unfold matdir_b. rewrite Ed. cbn [bind]. now rewrite X.
  - unfold matdirdir_b. destruct (dirs_ok sc k v L) as (s0 & -> & D0). destruct (dirs_ok sc k v' L) as (s1 & -> & D1). cbn [bind].
    destruct (dirprod_ok k v v' s0 s1 (D0 []) (D1 [])) as (s01 & -> & _). cbn [bind]. rewrite Ed. cbn [bind]. now rewrite X.
  - unfold umatdirlap_b. rewrite Ed. cbn [bind]. now rewrite X.
Qed.

(** Arrays that are not arrays of points, or whose batches do not broadcast. *)
Theorem C57_shape_errors : forall m sc c x0 x1,
  ((forall b, t_shape x0 <> b ++ c_shape c) -> bcall m sc c x0 x1 = Err ValueError) /\
  (forall y, x1 = Some y -> (forall b, t_shape y <> b ++ c_shape c) -> bcall m sc c x0 x1 = Err ValueError) /\
  (forall y b0 b1, x1 = Some y -> t_shape x0 = b0 ++ c_shape c -> t_shape y = b1 ++ c_shape c -> (forall b, broadcast_shapes b0 b1 <> Ok b) -> bcall m sc c x0 x1 = Err ValueError).
Proof.
  intros m sc c x0 x1.
  assert (C : check_shapes (F := RF) (c_shape c) (t_arr x0) (option_map t_arr x1) = Err ValueError -> bcall m sc c x0 x1 = Err ValueError).
  { intros E. destruct c; cbn [bcall]; unfold checked; now rewrite E. }
  unfold t_shape. repeat split.
  - intros H. apply C. unfold check_shapes. now rewrite batch_shape_err.
  - intros y -> H. apply C. unfold check_shapes. cbn [option_map second]. rewrite (batch_shape_err (t_arr y)) by exact H.
    destruct (batch_shape (c_shape c) (t_arr x0)) as [b|e] eqn:E; [reflexivity|]. unfold batch_shape in E. cbn [bind]. destruct (shape_eqb _ _) in E; [discriminate|]. cbn [bind]. congruence.
  - intros y b0 b1 -> S0 S1 H. apply C. unfold check_shapes. cbn [option_map second]. rewrite (batch_shape_ok _ _ _ S0), (batch_shape_ok _ _ _ S1). cbn [bind].
    destruct (broadcast_shapes b0 b1) as [b|e] eqn:E; [now elim (H b)|]. f_equal. exact (ShapedProps.broadcast_err _ _ _ E).
Qed.
(** JAX has no Bessel functions; the object [NotImplemented] cannot be called. *)
Theorem C57_unavailable : forall sc x0 x1 b0 b1 b sh, t_shape x0 = b0 ++ sh -> t_shape x1 = b1 ++ sh -> broadcast_shapes b0 b1 = Ok b ->
  (forall k nu f, mt_shape k = sh -> lens_ok sc sh (mt_len k) -> mt_nu k = OtherNu nu f ->
     bcall Jax sc (CMat k) x0 (Some x1) = Err NotImplementedError /\ bcall Jax sc (CMat k) x0 None = Err NotImplementedError) /\
  (sh = [] -> forall m, bcall m sc CNotImpl x0 (Some x1) = Err TypeError).
Proof.
  intros sc x0 x1 b0 b1 b sh S0 S1 B. pose proof S0 as T0. pose proof S1 as T1. unfold t_shape in T0, T1.
  pose proof (check_ok sh (t_arr x0) (Some (t_arr x1)) b0 b1 b (conj T0 T1) B : check_shapes sh (t_arr x0) (option_map t_arr (Some x1)) = _) as C.
  pose proof (check_ok sh (t_arr x0) None b0 b0 b0 (conj T0 T0) (broadcast_same b0) : check_shapes sh (t_arr x0) (option_map t_arr None) = _) as C'.
  split.
  - intros k nu f E L N. subst sh. cbn [bcall c_shape]. unfold checked. rewrite C, C'. cbn [bind]. unfold matern_b. rewrite N.
    destruct (dists_ok Jax sc x0 x1 b0 b1 b B k (or_introl eq_refl) L (conj S0 S1)) as (r & -> & _). cbn [bind]. now split.
  - intros -> m. cbn [bcall c_shape]. unfold checked. now rewrite C.
Qed.

(** With JAX the Matérn kernel and its Laplacians are exact at one array of integers. *)
Definition radial (c : cov) : Prop := match c with CMat _ => True | CUMatLap _ _ _ q | CUMatLapLap _ _ _ q => (1 <= py_degree q)%nat | _ => False end.
Theorem C57_jax_one_integer_array : forall sc c x0 b sh, t_shape x0 = b ++ sh -> t_int x0 = true -> supported Jax sc false false False sh c -> radial c ->
  exists a, bcall Jax sc c x0 None = Ok a /\ t_int a = false /\
    entries (t_arr a) b (fun i => ceval c (pt (F := RF) (t_arr x0) i) (pt (F := RF) (t_arr x0) i)).
Proof.
  intros sc c x0 b sh S I H Rc.
  assert (T0 : trunc 0 = 0%Z) by exact (trunc_IZR 0).
  assert (D : forall scale, exists r, dists Jax (length sh) scale x0 None = Ok r /\ t_int r = true /\ holdsd true Kb b [] r (fun _ _ => 0)).
  { intros scale. exists (like (length sh) x0 0). split; [reflexivity|]. split; [exact I|]. unfold like. rewrite S, I, last_axes, firstn_app_l, T0 by reflexivity. repeat split. cbn. now rewrite app_nil_r. }
  assert (Pc : forall q r, (1 <= py_degree q)%nat -> holdsd true Kb b [] r (fun _ _ => 0) -> exists v, poly_call Jax q r = Ok v /\ holds Kb b [] v (fun _ _ => py_eval q 0)).
  { intros q r Q (Ir & Sr & Vr). cbn [kshape] in Sr. rewrite app_nil_r in Sr. unfold poly_call, to_darr. rewrite Ir, Sr.
    destruct (C50_jax_integers q (map (fun i => Int_part (nat_ (t_arr r) i)) (all_indices b)) Q) as (k & _ & ->). cbn [bind].
    eexists. split; [reflexivity|]. split; [reflexivity|]. split; [cbn; now rewrite app_nil_r|]. intros i j Hi Hj. apply valid_index_nil in Hj as ->. cbn [kindex of_darr t_arr nat_ floats]. rewrite app_nil_r.
    rewrite map_map. assert (Z : map (fun i => py_eval q (IZR (Int_part (nat_ (t_arr r) i))) - (nth (py_degree q) (float_coeffs q) 0 - IZR k) * IZR (Int_part (nat_ (t_arr r) i)) ^ py_degree q) (all_indices b) = map (fun _ => py_eval q 0) (all_indices b)).
    { apply map_ext_in. intros x Hx. apply all_indices_spec in Hx. pose proof (Vr x [] Hx (Forall2_nil _)) as Q0. cbn [kindex] in Q0. rewrite app_nil_r in Q0. rewrite Q0.
      assert (Int_part 0 = 0%Z) as ->. { transitivity (trunc 0); [|exact T0]. unfold trunc. destruct (Rleb_spec 0 0); [reflexivity|lra]. }
      rewrite pow_i by lia. ring. }
    etransitivity; [exact (f_equal (fun l => nth (ravel b i) l 0) Z)|].
    rewrite (nth_indep _ 0 (py_eval q 0)) by (rewrite map_length, <- (map_length (ravel b)), ravel_all, seq_length; now apply ravel_lt).
    exact (map_nth (fun _ => py_eval q 0) (all_indices b) [] (ravel b i)). }
  assert (X : exists a, bcall Jax sc c x0 None = Ok a /\ holds Kb b [] a (fun i _ => cnone c (pt (F := RF) (t_arr x0) i))).
  { assert (W : forall ev g, (exists a, ev x0 None = Ok a /\ holds Kb b [] a g) -> exists a, checked sh ev x0 None = Ok a /\ holds Kb b [] a g).
    { intros ev g (a & E & A). exists a. split; [exact (checked_one _ _ _ _ _ _ S E A)|exact A]. }
    destruct H as [| | | | | |k E L N M| | | |k w r q E L N Z V|k w w' q E L N Z V| | | |]; try contradiction; cbn [bcall c_shape cnone]; rewrite E; apply W; cbv beta.
    - unfold matern_b. rewrite E. destruct (D (mt_scale_t sc k)) as (r & -> & _ & R0). cbn [bind]. destruct M as [M|[p M]]; [discriminate|]. rewrite M.
      cbn [matern_profile].
      assert (FC : float_coeffs (make_rational (half_integer_coefficients p)) = map Qc2R (half_integer_coefficients p)).
      { unfold make_rational, mkpoly, half_integer_coefficients. rewrite Nat.add_1_r. reflexivity. }
      destruct (rev (map Qc2R (half_integer_coefficients p))) as [|z zs] eqn:Er.
      { exfalso. unfold half_integer_coefficients in Er. apply (f_equal (@length R)) in Er. rewrite rev_length, !map_length, seq_length in Er. cbn in Er. lia. }
      assert (Hh : forall cs k0 a h, holds k0 b [] a h -> k0 <> Ks -> exists c' k', horner_b a cs r = Ok c' /\ k' <> Ks /\ holds k' b [] c' (fun i j => fold_left (hstep 0) cs (h i j))).
      { induction cs as [|x cs IH]; intros k0 a h Ha Nk; cbn [horner_b fold_left]; [eauto|].
        destruct (tbin_holds Rmult _ _ _ _ _ _ _ _ _ _ Ha R0) as (c' & -> & C'). cbn [bind andb] in *.
        destruct (tbin_holds Rplus _ _ _ _ _ _ _ _ _ _ C' (num_holds x b [])) as (c'' & -> & C''). cbn [bind andb] in *.
        apply (IH _ _ _ C''). destruct k0; cbn; congruence. }
      destruct (Hh zs K0 (num z) _ (num_holds z b []) ltac:(discriminate)) as (a & k' & -> & Nk & A). cbn [bind].
      destruct (tbin_holds Rmult _ _ _ _ _ _ _ _ _ _ A (tfun_holds exp _ _ _ _ _ _ (tneg_holds _ _ _ _ _ _ R0))) as (y & -> & Y). exists y. split; [reflexivity|].
      replace (kmax k' Kb) with Kb in Y by now destruct k'. eapply holds_ext; [exact Y|]. intros i j _ _. cbn beta. f_equal. symmetry. apply py_eval_horner.
      change (car RF) with R in *. rewrite FC. exact Er.
    - unfold umatlap_b. rewrite <- E in L, Z. destruct (ulap_ok sc k w Z L) as (p & p' & f & -> & E' & E'' & _ & F). cbn [bind]. rewrite E'. cbn [bind]. rewrite E''. cbn [bind].
      rewrite E. destruct (D (mt_scale_t sc k)) as (r' & -> & _ & R0). cbn [bind]. destruct (Pc q r' Rc R0) as (v & -> & Hv). repeat step b sh; intros; reflexivity.
    - unfold umatlaplap_b. rewrite <- E in L, Z. destruct (ulaplap_ok sc k w w' Z L) as (p & p' & f & -> & E' & E'' & _ & F). cbn [bind]. rewrite E'. cbn [bind]. rewrite E''. cbn [bind].
      rewrite E. destruct (D (mt_scale_t sc k)) as (r' & -> & _ & R0). cbn [bind]. destruct (Pc q r' Rc R0) as (v & -> & Hv). repeat step b sh; intros; reflexivity. }
  destruct X as (a & E & A). exists a. split; [exact E|]. apply holds_entries.
  eapply holds_ext; [exact A|]. intros i j _ _. now apply (supported_diag Jax sc false false False sh).
Qed.

(** ** Where the objects come from *)
(** Every covariance function built from ExpQuad kernels and operators (C33) is evaluated at
    arrays of floats as the corresponding derivative. *)
Lemma fam_supported m sh c : fam sh c -> supported m false false false False sh c.
Proof.
  assert (L : forall len, lens_ok false sh len) by (intros len X; discriminate).
  induction 1; constructor; auto.
Qed.
Theorem C57_expquad_arrays : forall fuel x c m x0 x1 b0 b1 b, kok x -> kbuild fuel x = Ok c -> c <> CNotImpl ->
  t_int x0 = false -> t_int x1 = false -> t_shape x0 = b0 ++ c_shape c -> t_shape x1 = b1 ++ c_shape c -> broadcast_shapes b0 b1 = Ok b ->
  exists a, bcall m false c x0 (Some x1) = Ok a /\ t_int a = false /\
    entries (t_arr a) b (fun i => kmean x (pt (F := RF) (t_arr x0) (operand_index b0 i)) (pt (F := RF) (t_arr x1) (operand_index b1 i))).
Proof.
  intros fuel x c m x0 x1 b0 b1 b O H N I0 I1 S0 S1 B. destruct (kbuild_sound fuel x c O H) as [->|(sh & F & E)]; [congruence|]. rewrite (fam_shape _ _ F) in *.
  rewrite <- E. apply (C57_two_arrays m false c x0 x1 b0 b1 b sh S0 S1 B). rewrite I0, I1. cbn [andb orb].
  assert (L : forall len, lens_ok false sh len) by (intros len X; discriminate).
  clear - F L. induction F; constructor; auto.
Qed.
(** Derivatives of half-integer Matérn kernels are made so that they can be evaluated. *)
Theorem C57_matern_objects : forall n m d a d' c c', (exists p, mt_nu m = HalfInt p) ->
  closed_op (mt_shape m) d -> closed_op (mt_shape m) d' -> (a = 0%nat \/ a = 1%nat) -> size (mt_shape m) = 1%nat ->
  ccall (S n) (ODiff d) (CMat m) a = Ok c -> ccall (S n) (ODiff d') c (1 - a) = Ok c' ->
  forall md z u one, md = Jax \/ z = false -> supported md false z u one (mt_shape m) (CMat m) /\ supported md false z u one (mt_shape m) c /\ supported md false z u one (mt_shape m) c'.
Proof.
  intros n m d a d' c c' P D D' A Z H H' md z u one F.
  assert (L : lens_ok false (mt_shape m) (mt_len m)) by (intros X; discriminate).
  assert (F0 : md = Jax \/ z = false \/ one) by tauto.
  split; [constructor; auto|]. destruct P as [p Hp].
  assert (Hu : univariate m = true) by (unfold univariate; now rewrite Z).
  assert (O : mat_obj c /\ ((exists v q, c = CMatDir m v (is0 a) q) \/ (exists w q, c = CUMatLap m w (is0 a) q))).
  { destruct D as [v|b w]; cbn [ccall cov_diffop_call] in H; unfold cov_dir_call, cov_lap_call in H; rewrite validate_fits in H by auto; cbn [bind] in H; rewrite ?Hu, Hp in H.
    - split; [apply (mk_valid m c v v v v (is0 a)); auto|]. left. unfold mk_matdir in H. rewrite Hp in H. apply bind_ok in H as (q & _ & H). injection H as <-. eauto.
    - split; [apply (mk_valid m c w w w w (is0 a)); auto|]. right. unfold mk_umatlap in H. rewrite Hp, Hu in H. injection H as <-. eauto. }
  destruct O as [V O]. split; [destruct O as [(v & q & ->)|(w & q & ->)]; cbn [mat_obj] in V; constructor; auto|].
  assert (A' : isarg (1 - a)) by (destruct A as [-> | ->]; unfold isarg; auto).
  assert (W : mat_obj c' /\ ((exists v v' q, c' = CUMatDirDir m v v' q) \/ (exists w w' q, c' = CUMatLapLap m w w' q) \/ (exists v w r q, c' = CUMatDirLap m v w r q))).
  { destruct O as [(v & q & ->)|(w & q & ->)], D' as [v'|b w']; cbn [ccall cov_diffop_call] in H'; unfold cov_dir_call, cov_lap_call in H'; rewrite validate_fits in H' by auto; cbn [bind] in H';
    rewrite ?Hu in H'; destruct A as [-> | ->]; cbn [is0 is1 Nat.eqb Nat.sub negb andb orb] in H'; (split; [eapply mk_valid; eauto 8|]);
    unfold mk_umatdirdir, mk_umatlaplap, mk_umatdirlap in H'; rewrite Hu, Hp in H'; cbn [negb] in H'; try (apply bind_ok in H' as (q' & _ & H')); injection H' as <-; eauto 10. }
  destruct W as [V' [(v & v' & q & ->)|[(w & w' & q & ->)|(v & w & r & q & ->)]]]; cbn [mat_obj] in V'; constructor; auto.
  Unshelve. all: exact (fun _ => 0) || exact true.
Qed.
Lemma supported_one m sc z u (one one' : Prop) sh c : (one -> one') -> supported m sc z u one sh c -> supported m sc z u one' sh c.
Proof. intros K. induction 1; constructor; tauto. Qed.
(** The contract assumed of covariance functions with several outputs, cross-covariances and
    tensor products (C29-C32, C51-C53) holds of them. *)
Theorem C57_contract : forall m sc c x0 x1 b0 b1 b sh, t_int x0 = false -> (forall y, x1 = Some y -> t_int y = false) ->
  points sh (t_arr x0) (option_map t_arr x1) b0 b1 -> broadcast_shapes b0 b1 = Ok b -> supported m sc false false False sh c ->
  exists a a', bcall m sc c x0 x1 = Ok a /\
    (match m with NumPy => k_call (F := RF) | Jax => k_jax (F := RF) end) (KLeaf (F := RF) sh [] [] (fun p q _ _ => ceval c p q)) (t_arr x0) (option_map t_arr x1) = Ok a' /\ nd_eq (t_arr a) a'.
Proof.
  intros m sc c x0 x1 b0 b1 b sh I0 I1 P B H.
  assert (X : exists a', (match m with NumPy => k_call (F := RF) | Jax => k_jax (F := RF) end) (KLeaf (F := RF) sh [] [] (fun p q _ _ => ceval c p q)) (t_arr x0) (option_map t_arr x1) = Ok a' /\
    cov_array a' b [] [] (leaf_value (F := RF) (fun p q _ _ => ceval c p q) (t_arr x0) (option_map t_arr x1) b0 b1)).
  { destruct m; [exact (leaf_call (F := RF) _ _ _ _ _ _ _ _ _ P B)|exact (leaf_jax (F := RF) _ _ _ _ _ _ _ _ _ P B)]. }
  destruct X as (a' & E' & S' & V'). cbn [app] in S'. rewrite app_nil_r in S'.
  assert (Y : exists a, bcall m sc c x0 x1 = Ok a /\ entries (t_arr a) b (fun i => leaf_value (F := RF) (fun p q _ _ => ceval c p q) (t_arr x0) (option_map t_arr x1) b0 b1 i [] [])).
  { destruct x1 as [y|]; destruct P as [S0 S1]; cbn [option_map second] in S1.
    - destruct (C57_two_arrays m sc c x0 y b0 b1 b sh S0 S1 B) as (a & E & _ & A); [|eauto].
      rewrite I0, (I1 y eq_refl). cbn [andb orb]. now apply (supported_one m sc false false False).
    - assert (b1 = b0) as -> by (unfold t_shape in *; rewrite S0 in S1; now apply app_inv_tail in S1). rewrite broadcast_same in B. injection B as <-.
      destruct (C57_one_array m sc c x0 b0 sh S0 I0 H) as (a & E & _ & SA & A). exists a. split; [exact E|]. split; [exact SA|]. intros i Hi. rewrite A by exact Hi. unfold leaf_value. cbn [option_map second]. now rewrite operand_index_id. }
  destruct Y as (a & E & SA & A). exists a, a'. split; [exact E|]. split; [exact E'|]. split; [congruence|]. rewrite SA. intros i Hi. rewrite A by exact Hi.
  pose proof (V' i [] [] Hi (Forall2_nil _) (Forall2_nil _)) as Q. cbn [app] in Q. rewrite app_nil_r in Q. symmetry. exact Q.
Qed.

(** ** Concrete cases *)
Definition ex_x : tnd := T false (Nd [3%nat; 1%nat; 2%nat] (fun i => 1 / 2 + INR (nth 0 i 0%nat) + INR (nth 2 i 0%nat))).
Definition ex_y : tnd := T true (Nd [4%nat; 2%nat] (fun i => INR (nth 0 i 0%nat))).
Definition ex_e2 : expquad := ExpQuad [2%nat] (fun i => INR (S (nth 0 i 0%nat))).
Definition ex_m2 : matern := Matern [2%nat] (fun _ => 3) (HalfInt 2).
Definition ex_q : pypoly := matern_poly 2 2.
Definition ex_cov : cov := CSum [CScaled 2 (CExpLapLap ex_e2 (fun _ => 1) (fun _ => 1)); CMat ex_m2; CMatDir ex_m2 (fun _ => 1) true ex_q; CExpDirLap ex_e2 (fun _ => 1) (fun _ => 1) false].
Lemma ex_lens s len : lens_ok false s len. Proof. intros X; discriminate. Qed.
Lemma ex_valid : py_valid ex_q. Proof. apply matern_valid. Qed.
Example C57_ex_supported : forall m z u one, m = Jax \/ z = false -> supported m false z u one [2%nat] ex_cov.
Proof.
  intros m z u one F. assert (F' : m = Jax \/ z = false \/ one) by tauto. constructor. intros c' [<-|[<-|[<-|[<-|[]]]]].
  - constructor. now constructor; [|apply ex_lens].
  - constructor; [reflexivity|apply ex_lens|exact F|]. right. now exists 2%nat.
  - constructor; [reflexivity|apply ex_lens|exact F'|apply ex_valid].
  - now constructor; [|apply ex_lens|].
Qed.
(** floats of shape [(3, 1, 2)] against integers of shape [(4, 2)]: an array of shape [(3, 4)] *)
Example C57_ex_two : forall m, exists a, bcall m false ex_cov ex_x (Some ex_y) = Ok a /\ t_shape a = [3%nat; 4%nat].
Proof.
  intros m. destruct (C57_two_arrays m false ex_cov ex_x ex_y [3%nat; 1%nat] [4%nat] [3%nat; 4%nat] [2%nat] eq_refl eq_refl eq_refl) as (a & E & _ & S & _); [|eauto].
  apply C57_ex_supported. now right.
Qed.
Example C57_ex_one : forall m, exists a, bcall m false ex_cov ex_x None = Ok a /\ t_shape a = [3%nat; 1%nat].
Proof.
  intros m. destruct (C57_one_array m false ex_cov ex_x [3%nat; 1%nat] [2%nat] eq_refl eq_refl) as (a & E & _ & S & _); [|eauto].
  apply C57_ex_supported. now right.
Qed.
Example C57_ex_int : bcall NumPy false (CMatDir ex_m2 (fun _ => 1) true ex_q) ex_y (Some ex_y) = Err TypeError.
Proof.
  apply (C57_matern_integers_refuted false _ ex_y ex_y [4%nat] [4%nat] [4%nat] [2%nat]); try reflexivity; [|discriminate].
  constructor; [reflexivity|apply ex_lens|auto|apply ex_valid].
Qed.
Example C57_ex_shape : forall m c, c_shape c = [2%nat] -> bcall m false c (T false (Nd [2%nat; 3%nat] (fun _ => 0))) None = Err ValueError.
Proof.
  intros m c H. apply C57_shape_errors. rewrite H. intros b E. cbn in E. apply (f_equal (@rev nat)) in E. rewrite rev_app_distr in E. discriminate.
Qed.
Print Assumptions C57_two_arrays.
Print Assumptions C57_one_array.
Print Assumptions C57_one_integer_array.
Print Assumptions C57_one_integer_refuted.
Print Assumptions C57_matern_integers_refuted.
Print Assumptions C57_shape_errors.
Print Assumptions C57_unavailable.
Print Assumptions C57_jax_one_integer_array.
Print Assumptions C57_expquad_arrays.
Print Assumptions C57_matern_objects.
Print Assumptions C57_contract.
