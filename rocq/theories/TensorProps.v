(** C29: tensor products of covariance functions, and their operators on grids. *)
From Coq Require Import List Arith Lia Bool Reals.
From Verif Require Import Base NdArray NdData BlockModel BlockSpec CovModel CovSpec CovProofs CrossModel CrossSpec CrossProofs CrossKern
  ParamSpec ParamProofs DiffopModel TensorModel TensorSpec TensorProofs TensorSchur.
Import ListNotations.
Local Open Scope nat_scope.

(** ** Constructor *)
(** Exactly the non-empty lists of covariance functions on the line with equal output
    shapes are accepted; inputs are vectors with one coordinate per factor. *)
Theorem C29_constructor : forall (F : fops) (l l' : list (kfun F)),
  mk_tensor l = Ok l' <->
  l' = l /\ exists c, hd_error l = Some c /\ forall k, In k l -> k_in k = [] /\ k_out0 k = k_out0 c /\ k_out1 k = k_out1 c.
Proof.
  intros F l l'. unfold mk_tensor. destruct (forallb (fun k => shape_eqb (k_in k) []) l) eqn:A; cbn [negb].
  - rewrite forallb_forall in A. destruct l as [|c l].
    + split; [discriminate|]. intros [_ [c [E _]]]. discriminate.
    + destruct (forallb _ (c :: l)) eqn:B.
      * rewrite forallb_forall in B. split.
        -- intros E. injection E as <-. split; [reflexivity|]. exists c. split; [reflexivity|]. intros k Hk.
           specialize (A k Hk). specialize (B k Hk). apply andb_true_iff in B as [B1 B2].
           destruct (shape_eqb_spec (k_in k) []), (shape_eqb_spec (k_out0 k) (k_out0 c)), (shape_eqb_spec (k_out1 k) (k_out1 c)); try discriminate. auto.
        -- intros [-> _]. reflexivity.
      * split; [discriminate|]. intros [_ [c' [E H]]]. injection E as <-. exfalso. revert B. rewrite <- not_true_iff_false. intros B. apply B.
        apply forallb_forall. intros k Hk. destruct (H k Hk) as [_ [-> ->]]. now rewrite !shape_eqb_refl.
  - split; [discriminate|]. intros [_ [c [E H]]]. exfalso. revert A. rewrite <- not_true_iff_false. intros A. apply A.
    apply forallb_forall. intros k Hk. destruct (H k Hk) as [-> _]. apply shape_eqb_refl.
Qed.
(** Everything else raises ValueError, except that no factors at all give IndexError (the
    test for them can never fail). *)
Theorem C29_constructor_errors : forall (F : fops) (l : list (kfun F)) e, mk_tensor l = Err e -> e = if length l =? 0 then IndexError else ValueError.
Proof.
  intros F l e. unfold mk_tensor. destruct l as [|c l]; [cbn; congruence|].
  destruct (negb _); [cbn; congruence|]. destruct (forallb _ _); cbn; congruence.
Qed.

(** ** Values *)
(** Arrays and jax arrays of points: the product of the factors, for all outputs; the
    second argument defaults to the first. *)
Theorem C29_value : forall (F : fops), flaws F -> forall l o0 o1 g x0 x1 b0 b1 b, tensor_ok l o0 o1 g ->
  points [length l] x0 x1 b0 b1 -> broadcast_shapes b0 b1 = Ok b ->
  exists a a', tp_call l x0 x1 = Ok a /\ tp_jax l x0 x1 = Ok a' /\
    let value := fun i o q => tensor (length l) (fun m => g m o q)
                                (@coordinate F x0 (operand_index b0 i)) (coordinate (second x0 x1) (operand_index b1 i)) in
    cov_array a b o0 o1 value /\ cov_array a' b o0 o1 value.
Proof.
  intros F LF l o0 o1 g x0 x1 b0 b1 b OK HP B.
  destruct (tp_call_ok LF _ _ _ _ _ _ _ _ _ OK HP B) as [a [Ea Ha]]. destruct (tp_jax_ok LF _ _ _ _ _ _ _ _ _ OK HP B) as [a' [Ea' Ha']].
  exists a, a'. auto.
Qed.
(** Points with another number of coordinates are rejected. *)
Theorem C29_value_errors : forall (F : fops) (l : list (kfun F)) x0 x1 b n, nshape x0 = b ++ [n] -> n <> length l ->
  tp_call l x0 x1 = Err ValueError /\ tp_jax l x0 x1 = Err ValueError.
Proof.
  intros F l x0 x1 b n E N. assert (G : check_shapes (tp_in l) x0 x1 = Err ValueError).
  { unfold check_shapes, batch_shape, tp_in. rewrite E, app_length. cbn [length]. rewrite Nat.add_sub.
    rewrite skipn_app_l by reflexivity. destruct (shape_eqb_spec [n] [length l]) as [H|H]; [congruence|reflexivity]. }
  unfold tp_call, tp_jax. now rewrite G.
Qed.
(** For real factors that are symmetric and positive semidefinite, so is the product. *)
Theorem C29_psd : forall n (g : nat -> R -> R -> R), (forall m, m < n -> (forall x y, g m x y = g m y x) /\ psd_kernel (g m : R -> R -> RF)) ->
  (forall x y, @tensor RF R n g x y = @tensor RF R n g y x) /\ psd_kernel (fun x y : nat -> R => @tensor RF R n g x y).
Proof. intros n g H. split; [apply tensor_sym; intros m Hm; apply (H m Hm)|apply tensor_psd; intros m Hm; apply (H m Hm)]. Qed.

(** ** Grids *)
(** The grid holds all combinations of the entries of its factors, the last one varying
    fastest; factors of any shape are flattened. *)
Theorem C29_grid : forall (F : fops) (fs : list (nd F)), fs <> [] ->
  exists x, mk_grid fs IJ = Ok (PGrid x (Some fs)) /\ grid_of x (sizes fs) (fun m => flat (nth m fs dnd)).
Proof.
  intros F fs N. destruct (mk_grid_ok fs IJ N) as [x [E [S V]]]; [discriminate|]. exists x. split; [exact E|]. cbn [mesh_shape mesh_index] in *.
  assert (L : length (sizes fs) = length fs) by apply map_length. split; [now rewrite L|]. intros i m _ Hm. rewrite L in Hm. now apply V.
Qed.
(** With [indexing="xy"] the first two axes are exchanged. *)
Theorem C29_grid_xy : forall (F : fops) (fs : list (nd F)) a b s, sizes fs = a :: b :: s ->
  exists x, mk_grid fs XY = Ok (PGrid x (Some fs)) /\ nshape x = b :: a :: s ++ [length fs] /\
    forall p q i m, m < length fs -> nat_ x ((q :: p :: i) ++ [m]) = flat (nth m fs dnd) (nth m (p :: q :: i) 0).
Proof.
  intros F fs a b s E. assert (N : fs <> []) by (intros ->; discriminate).
  destruct (mk_grid_ok fs XY N) as [x [Ex [S V]]]; [discriminate|]. exists x. split; [exact Ex|]. rewrite E in S. cbn [mesh_shape mesh_index app] in *.
  split; [exact S|]. intros p q i m Hm. apply (V (q :: p :: i) m Hm).
Qed.
Theorem C29_grid_errors : forall (F : fops) (fs : list (nd F)), (forall ix, mk_grid (@nil (nd F)) ix = Err ValueError) /\ mk_grid fs OtherIndexing = Err ValueError.
Proof. intros F fs. split; [intros []; reflexivity|reflexivity]. Qed.

(** ** Operators *)
(** On two grids the Kronecker product holds, at the row of the grid point [i] and the
    column of the grid point [j] in C order, the covariance of these points. *)
Theorem C29_kronecker : forall (F : fops), flaws F -> forall l g fs0 fs1 g0 g1, tensor_ok l [] [] g ->
  length fs0 = length l -> length fs1 = length l -> mk_grid fs0 IJ = Ok g0 -> mk_grid fs1 IJ = Ok g1 ->
  exists M, tp_linop l g0 (Some g1) = Ok M /\
    cov_matrix M (sizes fs0) (sizes fs1) [] [] (fun i j o q =>
      tensor (length l) (fun m => g m o q) (@coordinate F (parg_arr g0) i) (coordinate (parg_arr g1) j)).
Proof.
  intros F LF l g fs0 fs1 g0 g1 OK L0 L1 G0 G1. destruct (mk_grid_inv _ _ _ G0) as [N0 _]. destruct (mk_grid_inv _ _ _ G1) as [N1 _].
  destruct (mk_grid_ok fs0 IJ N0) as [x0 [E0 [S0 V0]]]; [discriminate|]. destruct (mk_grid_ok fs1 IJ N1) as [x1 [E1 [S1 V1]]]; [discriminate|].
  rewrite G0 in E0. injection E0 as ->. rewrite G1 in E1. injection E1 as ->.
  destruct (kron_factors LF l g fs0 (Some fs1) OK L0 L1) as [M [EM [R [C V]]]]. exists M. split; [exact EM|]. cbn [used] in *.
  split; [exact R|]. split; [exact C|]. intros i j o q Hi Hj Ho Hq. apply valid_index_nil in Ho, Hq. subst o q. cbn [app]. rewrite V by assumption.
  apply tensor_ext. intros m Hm. unfold coordinate. cbn [parg_arr]. rewrite V0, V1 by congruence. reflexivity.
Qed.
(** With one grid, the same grid on both sides. *)
Theorem C29_kronecker_one : forall (F : fops), flaws F -> forall l g fs g0, tensor_ok l [] [] g ->
  length fs = length l -> mk_grid fs IJ = Ok g0 ->
  exists M, tp_linop l g0 None = Ok M /\
    cov_matrix M (sizes fs) (sizes fs) [] [] (fun i j o q =>
      tensor (length l) (fun m => g m o q) (@coordinate F (parg_arr g0) i) (coordinate (parg_arr g0) j)).
Proof.
  intros F LF l g fs g0 OK L0 G0. destruct (mk_grid_inv _ _ _ G0) as [N0 _].
  destruct (mk_grid_ok fs IJ N0) as [x0 [E0 [S0 V0]]]; [discriminate|]. rewrite G0 in E0. injection E0 as ->.
  destruct (kron_factors LF l g fs None OK L0 L0) as [M [EM [R [C V]]]]. exists M. split; [exact EM|]. cbn [used] in *.
  split; [exact R|]. split; [exact C|]. intros i j o q Hi Hj Ho Hq. apply valid_index_nil in Ho, Hq. subst o q. cbn [app]. rewrite V by assumption.
  apply tensor_ext. intros m Hm. unfold coordinate. cbn [parg_arr]. rewrite !V0 by congruence. reflexivity.
Qed.
(** On any other arguments the operator is the matrix of all pairs of points, outputs
    first. *)
Theorem C29_dense : forall (F : fops), flaws F -> forall l o0 o1 g (x0 : parg F) x1 b0 b1, tensor_ok l o0 o1 g ->
  is_grid x0 && match x1 with Some y => is_grid y | None => true end = false ->
  points [length l] (parg_arr x0) (option_map parg_arr x1) b0 b1 ->
  exists M, tp_linop l x0 x1 = Ok M /\
    cov_matrix M b0 b1 o0 o1 (fun i j o q => tensor (length l) (fun m => g m o q)
      (coordinate (parg_arr x0) i) (coordinate (second (parg_arr x0) (option_map parg_arr x1)) j)).
Proof.
  intros F LF l o0 o1 g x0 x1 b0 b1 OK NG HP. unfold tp_linop.
  replace (is_grid x0 && match x1 with Some y => is_grid y | None => true end) with false
    by (rewrite <- NG; destruct x1; reflexivity).
  replace (is_grid x0 && match x1 with | Some y => is_grid y | None => true end) with false in * by congruence.
  destruct (tensor_out _ _ _ _ OK) as [-> ->].
  destruct (all_pairs_ok (tp_call l) (tp_in l) o0 o1 (parg_arr x0) (option_map parg_arr x1) b0 b1
    (fun o q u v => tensor (length l) (fun m => g m o q) (fun m => u [m]) (fun m => v [m])) HP) as [M [EM HM]].
  - intros X0 X1 c0 c1 b E0 E1 B. destruct (tp_call_ok LF l o0 o1 g X0 (Some X1) c0 c1 b OK) as [a [Ea Ha]]; [now split|exact B|]. exists a. auto.
  - exists M. auto.
Qed.
Lemma cov_matrix_eq {F : fops} (A B : mat F) b0 b1 h : cov_matrix A b0 b1 [] [] h -> cov_matrix B b0 b1 [] [] h -> mat_eq A B.
Proof.
  intros [R [C V]] [R' [C' V']]. cbn [app] in *. split; [congruence|]. split; [congruence|]. intros i j Hi Hj. rewrite R in Hi. rewrite C in Hj.
  specialize (V (unravel b0 i) (unravel b1 j) [] [] (unravel_valid _ _ Hi) (unravel_valid _ _ Hj)).
  specialize (V' (unravel b0 i) (unravel b1 j) [] [] (unravel_valid _ _ Hi) (unravel_valid _ _ Hj)). cbn [app] in V, V'.
  rewrite !ravel_unravel in V, V' by assumption. rewrite V, V' by constructor. reflexivity.
Qed.
(** Hence the Kronecker product of two grids equals the dense matrix of the same points. *)
Theorem C29_kronecker_dense : forall (F : fops), flaws F -> forall l g fs0 fs1 (g0 g1 : parg F), tensor_ok l [] [] g ->
  length fs0 = length l -> length fs1 = length l -> mk_grid fs0 IJ = Ok g0 -> mk_grid fs1 IJ = Ok g1 ->
  exists M D, tp_linop l g0 (Some g1) = Ok M /\ tp_linop l (PArr (parg_arr g0)) (Some (PArr (parg_arr g1))) = Ok D /\ mat_eq M D.
Proof.
  intros F LF l g fs0 fs1 g0 g1 OK L0 L1 G0 G1. destruct (C29_kronecker F LF l g fs0 fs1 g0 g1 OK L0 L1 G0 G1) as [M [EM HM]].
  destruct (mk_grid_inv _ _ _ G0) as [N0 _]. destruct (mk_grid_inv _ _ _ G1) as [N1 _].
  destruct (C29_grid F fs0 N0) as [x0 [E0 [S0 _]]]. destruct (C29_grid F fs1 N1) as [x1 [E1 [S1 _]]].
  rewrite G0 in E0. injection E0 as ->. rewrite G1 in E1. injection E1 as ->.
  destruct (C29_dense F LF l [] [] g (PArr x0) (Some (PArr x1)) (sizes fs0) (sizes fs1) OK) as [D [ED HD]].
  - reflexivity.
  - unfold sizes in *. rewrite map_length in S0, S1. split; cbn [parg_arr option_map second]; congruence.
  - exists M, D. split; [exact EM|]. split; [exact ED|]. apply (cov_matrix_eq _ _ _ _ _ HM HD).
Qed.
(** The operator only looks at the factors: an ["xy"] grid has the operator of the ["ij"]
    grid. *)
Theorem C29_kronecker_xy : forall (F : fops) (l : list (kfun F)) fs0 fs1 ix0 ix1 ix0' ix1' g0 g1 g0' g1',
  mk_grid fs0 ix0 = Ok g0 -> mk_grid fs1 ix1 = Ok g1 -> mk_grid fs0 ix0' = Ok g0' -> mk_grid fs1 ix1' = Ok g1' ->
  tp_linop l g0 (Some g1) = tp_linop l g0' (Some g1') /\ tp_linop l g0 None = tp_linop l g0' None.
Proof.
  assert (A : forall (F : fops) (fs : list (nd F)) ix g, mk_grid fs ix = Ok g -> exists x, g = PGrid x (Some fs)).
  { intros F fs ix g H. destruct (mk_grid_inv _ _ _ H) as [N NI]. destruct (mk_grid_ok fs ix N NI) as [x [E _]]. exists x. congruence. }
  intros F l fs0 fs1 ix0 ix1 ix0' ix1' g0 g1 g0' g1' H0 H1 H0' H1'.
  apply A in H0 as [x0 ->], H1 as [x1 ->], H0' as [x0' ->], H1' as [x1' ->]. split; reflexivity.
Qed.

(** ** Failures *)
Definition ex_f (l : list nat) : nd QcF := Nd [length l] (fun i => fnat (nth (nth 0 i 0) l 0)).
(** [(1 + x y)] and [(2 + x y)] *)
Definition ex_k (c : nat) : kfun QcF := KLeaf [] [] [] (fun x y _ _ => fadd (fnat c) (fmul (x []) (y []))).
Definition ex_l : list (kfun QcF) := [ex_k 1; ex_k 2].
Lemma ex_ok : tensor_ok ex_l [] [] (fun m _ _ s t => fadd (fnat (S m)) (fmul s t)).
Proof. split; [discriminate|]. intros [|[|m]] k E; cbn in E; [| |destruct m; discriminate]; injection E as <-; apply leaf_values; reflexivity. Qed.
(** Non-vacuity: on the grid of [0, 1] and [0, 1, 2], entry [(1, 2), (1, 1)] is
    [(1 + 1) (2 + 2) = 8]. *)
Example C29_ex : exists g0 M, mk_grid [ex_f [0; 1]; ex_f [0; 1; 2]] IJ = Ok g0 /\ tp_linop ex_l g0 None = Ok M /\
  nrows M = 6 /\ ncols M = 6 /\ entry M 5 4 = fnat 8.
Proof. do 2 eexists. split; [reflexivity|]. split; [reflexivity|]. repeat split; reflexivity. Qed.
(** On an ["xy"] grid the operator is not the covariance matrix of the points of the grid
    in C order: the point number 2 is [(0, 1)], with variance 3. *)
Theorem C29_xy_refuted : exists g0 M D, mk_grid [ex_f [0; 1]; ex_f [0; 1; 2]] XY = Ok g0 /\
  tp_linop ex_l g0 None = Ok M /\ tp_linop ex_l (PArr (parg_arr g0)) None = Ok D /\
  nrows M = nrows D /\ ncols M = ncols D /\ entry D 2 2 = fnat 3 /\ entry M 2 2 = fnat 6.
Proof.
  do 3 eexists. split; [reflexivity|]. split; [reflexivity|]. split; [reflexivity|].
  repeat split; try reflexivity; apply Qcanon.Qc_is_canon; vm_compute; reflexivity.
Qed.
(** Every array derived from a grid is still of its class but has no factors. *)
Theorem C29_derived_grid_refuted : forall (F : fops) (l : list (kfun F)) fs ix g0 f, mk_grid fs ix = Ok g0 ->
  tp_linop l (parg_map f g0) None = Err AttributeError /\ tp_linop l (parg_map f g0) (Some g0) = Err AttributeError /\
  tp_linop l g0 (Some (parg_map f g0)) = Err AttributeError.
Proof.
  intros F l fs ix g0 f H. destruct (mk_grid_inv _ _ _ H) as [N NI]. destruct (mk_grid_ok fs ix N NI) as [x [E _]].
  rewrite H in E. injection E as ->. repeat split; reflexivity.
Qed.
(** With several outputs the Kronecker product has the wrong size: two outputs and four
    points, but 16 rows. *)
Theorem C29_multi_output_refuted : exists (l : list (kfun QcF)) g g0 M D, tensor_ok l [2] [2] g /\
  mk_grid [ex_f [0; 1]; ex_f [0; 1]] IJ = Ok g0 /\ tp_linop l g0 None = Ok M /\ tp_linop l (PArr (parg_arr g0)) None = Ok D /\
  nrows D = 8 /\ nrows M = 16.
Proof.
  set (k := KLeaf [] [2] [2] (fun x y _ _ => fadd f1 (fmul (x []) (y []))) : kfun QcF).
  exists [k; k], (fun _ _ _ s t => fadd f1 (fmul s t)). do 3 eexists.
  split; [split; [discriminate|]; intros [|[|m]] j E; cbn in E; [| |destruct m; discriminate]; injection E as <-; apply leaf_values; reflexivity|].
  split; [reflexivity|]. split; [reflexivity|]. split; reflexivity || (split; reflexivity).
Qed.
(** A grid with fewer coordinates than the kernel is accepted (the same points as a plain
    array are rejected); one with more raises IndexError. *)
Theorem C29_fewer_coordinates_refuted : exists g0 M, mk_grid [ex_f [0; 1]] IJ = Ok g0 /\ tp_linop ex_l g0 None = Ok M /\ nrows M = 2 /\
  tp_linop ex_l (PArr (parg_arr g0)) None = Err ValueError.
Proof. do 2 eexists. repeat split; reflexivity. Qed.
Theorem C29_more_coordinates : forall (F : fops), flaws F -> forall l (g : nat -> index -> index -> F -> F -> F) fs g0, tensor_ok l [] [] g -> length l < length fs ->
  mk_grid fs IJ = Ok g0 -> tp_linop l g0 None = Err IndexError.
Proof.
  intros F LF l g fs g0 [N H] L G. destruct (mk_grid_inv _ _ _ G) as [NF _]. destruct (mk_grid_ok fs IJ NF) as [x [E _]]; [discriminate|].
  rewrite G in E. injection E as ->. change None with (match @None (list (nd F)) with Some f => Some (PGrid x (Some f)) | None => None end) at 1.
  rewrite tp_linop_grids. cbn [second_factors].
  assert (A : forall s (m : list (nd F)), length l < s + length m -> s <= length l ->
    mapR (fun '(idx, (f0, f1)) => match nth_error l idx with None => Err IndexError | Some k => k_linop k f0 f1 end)
      (combine (seq s (length m)) (combine m (map (fun _ => @None (nd F)) m))) = Err IndexError).
  { intros s m. revert s. induction m as [|f m IH]; intros s Hs Hl; [cbn in Hs; lia|]. cbn [length seq map combine mapR].
    destruct (nth_error l s) as [k|] eqn:Ek; [|reflexivity]. destruct (hv_linop _ _ _ _ (H s k Ek) f None) as [M [-> _]]. cbn [bind].
    rewrite IH; [reflexivity|cbn [length] in Hs; lia|]. assert (s < length l) by (apply nth_error_Some; congruence). lia. }
  unfold enumerate. rewrite combine_map_r, map_length. rewrite <- combine_map_r. rewrite A; [reflexivity|cbn; lia|lia].
Qed.

Print Assumptions C29_kronecker_dense.
Print Assumptions C29_value.
Print Assumptions C29_psd.
