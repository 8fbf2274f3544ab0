(** C53: differential operators on tensor products of covariance functions. *)
From Coq Require Import List Arith ZArith Lia Bool Reals Lra.
From Coquelicot Require Import Coquelicot.
From Verif Require Import Base NdArray NdData BlockModel BlockSpec CovModel CovSpec CovProofs CrossModel CrossSpec CrossProofs CrossKern
  ParamSpec ParamProofs PolyClassModel FunExprModel DiffopModel DiffopSpec DiffopProofs DiffopFactor LfoSpec TensorModel TensorSpec TensorProofs TensorDiffSpec TensorDiff TensorProps TensorDeriv.
Import ListNotations.
Local Open Scope nat_scope.

(** ** Values *)
(** The covariance function of [L0] on the first and [L1] on the second argument: arrays,
    jax arrays. *)
Theorem C53_value : forall (F : fops), flaws F -> forall pdf ks (L0 L1 : tdop F) C0 C1 o0 o1 G x0 x1 b0 b1 b,
  terms L0 (length ks) C0 -> terms L1 (length ks) C1 -> factors_differentiable pdf ks C0 C1 o0 o1 G ->
  points [length ks] x0 x1 b0 b1 -> broadcast_shapes b0 b1 = Ok b ->
  exists d a a', dt_init pdf ks L0 L1 = Ok d /\ dt_call d x0 x1 = Ok a /\ dt_jax d x0 x1 = Ok a' /\
    let value := fun i o q => diff_value (length ks) C0 C1 (fun m p r => G m p r o q)
                   (@coordinate F x0 (operand_index b0 i)) (coordinate (second x0 x1) (operand_index b1 i)) in
    cov_array a b o0 o1 value /\ cov_array a' b o0 o1 value.
Proof.
  intros F LF pdf ks L0 L1 C0 C1 o0 o1 G x0 x1 b0 b1 b T0 T1 D HP B.
  destruct (dt_init_ok pdf ks o0 o1 G L0 L1 C0 C1 T0 T1 D) as [d [I _]].
  destruct (dt_evaluate_ok LF pdf ks L0 L1 C0 C1 d T0 T1 o0 o1 G D I (@k_call F) x0 x1 b0 b1 b) as [a [Ea Ha]]; [intros k g HV; apply (hv_call _ _ _ _ HV)|exact HP|exact B|].
  destruct (dt_evaluate_ok LF pdf ks L0 L1 C0 C1 d T0 T1 o0 o1 G D I (@k_jax F) x0 x1 b0 b1 b) as [a' [Ea' Ha']]; [intros k g HV; apply (hv_jax _ _ _ _ HV)|exact HP|exact B|].
  exists d, a, a'. auto.
Qed.
(** ... which are the operators applied to the product, in either order, when the values
    [G m i j] are the partial derivatives of [G m 0 0], as far as they occur in the
    operators. *)
Theorem C53_derivative : forall n T0 T1 C0 C1 G x y, derivatives n T0 T1 G -> orders_upto n T0 C0 -> orders_upto n T1 C1 ->
  apply_terms C0 (fun x' => apply_terms C1 (fun y' => @tensor RF R n (fun m => G m 0 0) (fun m => x' [m]) (fun m => y' [m])) y) x
    = @diff_value RF R n C0 C1 G (fun m => x [m]) (fun m => y [m]) /\
  apply_terms C1 (fun y' => apply_terms C0 (fun x' => @tensor RF R n (fun m => G m 0 0) (fun m => x' [m]) (fun m => y' [m])) x) y
    = @diff_value RF R n C0 C1 G (fun m => x [m]) (fun m => y [m]).
Proof. exact both_operators. Qed.
(** The object also stores the summands: the scaled tensor products of the differentiated
    factors. *)
Theorem C53_summands : forall (F : fops), flaws F -> forall pdf ks (L0 L1 : tdop F) C0 C1 o0 o1 G,
  terms L0 (length ks) C0 -> terms L1 (length ks) C1 -> factors_differentiable pdf ks C0 C1 o0 o1 G ->
  exists d, dt_init pdf ks L0 L1 = Ok d /\ Forall2 (fun '((a, c0), (b, c1)) '(c, l) => c = fmul c0 c1 /\ length l = length ks /\
      @tensor_ok F l o0 o1 (fun m => G m (mi_entry a [m]) (mi_entry b [m]))) (list_prod C0 C1) (dt_summands d).
Proof.
  intros F LF pdf ks L0 L1 C0 C1 o0 o1 G T0 T1 D.
  destruct (dt_init_ok pdf ks o0 o1 G L0 L1 C0 C1 T0 T1 D) as [d [I H]]. exists d. split; [exact I|]. apply H.
Qed.

(** ** Operators *)
(** On one grid, the Kronecker sums hold the covariances of the points of the grid. *)
Theorem C53_kronecker : forall (F : fops), flaws F -> forall pdf ks (L0 L1 : tdop F) C0 C1 G fs g0,
  terms L0 (length ks) C0 -> terms L1 (length ks) C1 -> factors_differentiable pdf ks C0 C1 [] [] G ->
  length fs = length ks -> mk_grid fs IJ = Ok g0 ->
  exists d M, dt_init pdf ks L0 L1 = Ok d /\ dt_linop d g0 None = Ok M /\
    cov_matrix M (sizes fs) (sizes fs) [] [] (fun i j o q =>
      diff_value (length ks) C0 C1 (fun m p r => G m p r o q) (@coordinate F (parg_arr g0) i) (coordinate (parg_arr g0) j)).
Proof.
  intros F LF pdf ks L0 L1 C0 C1 G fs g0 T0 T1 D Lf E0.
  destruct (dt_init_ok pdf ks [] [] G L0 L1 C0 C1 T0 T1 D) as [d [I _]].
  destruct (mk_grid_inv _ _ _ E0) as [N0 _]. destruct (mk_grid_ok fs IJ N0) as [x0 [Ex [S0 V0]]]; [discriminate|]. rewrite E0 in Ex. injection Ex as ->.
  destruct (dt_linop_grid LF pdf ks L0 L1 C0 C1 d T0 T1 G D I fs x0 None Lf Logic.I) as [M [EM [R [C V]]]].
  exists d, M. split; [exact I|]. split; [exact EM|]. split; [exact R|]. split; [exact C|]. intros i j o q Hi Hj Ho Hq. apply valid_index_nil in Ho, Hq. subst o q. cbn [app].
  rewrite V by assumption. unfold diff_value. f_equal. apply map_ext. intros [a c0]. f_equal. apply map_ext. intros [b c1]. f_equal. apply tensor_ext.
  intros m Hm. unfold coordinate. cbn [parg_arr]. rewrite !V0 by congruence. reflexivity.
Qed.
(** A second grid is ignored: whatever it is, the operator is that of the first grid with
    itself. *)
Theorem C53_second_grid_refuted : forall (F : fops), flaws F -> forall pdf ks (L0 L1 : tdop F) C0 C1 G fs g0 g1,
  terms L0 (length ks) C0 -> terms L1 (length ks) C1 -> factors_differentiable pdf ks C0 C1 [] [] G ->
  length fs = length ks -> mk_grid fs IJ = Ok g0 -> is_grid g1 = true ->
  exists d M, dt_init pdf ks L0 L1 = Ok d /\ dt_linop d g0 (Some g1) = Ok M /\
    cov_matrix M (sizes fs) (sizes fs) [] [] (fun i j o q =>
      diff_value (length ks) C0 C1 (fun m p r => G m p r o q) (@coordinate F (parg_arr g0) i) (coordinate (parg_arr g0) j)).
Proof.
  intros F LF pdf ks L0 L1 C0 C1 G fs g0 g1 T0 T1 D Lf E0 E1.
  destruct (dt_init_ok pdf ks [] [] G L0 L1 C0 C1 T0 T1 D) as [d [I _]].
  destruct (mk_grid_inv _ _ _ E0) as [N0 _]. destruct (mk_grid_ok fs IJ N0) as [x0 [Ex [S0 V0]]]; [discriminate|]. rewrite E0 in Ex. injection Ex as ->.
  destruct (dt_linop_grid LF pdf ks L0 L1 C0 C1 d T0 T1 G D I fs x0 (Some g1) Lf E1) as [M [EM [R [C V]]]].
  exists d, M. split; [exact I|]. split; [exact EM|]. split; [exact R|]. split; [exact C|]. intros i j o q Hi Hj Ho Hq. apply valid_index_nil in Ho, Hq. subst o q. cbn [app].
  rewrite V by assumption. unfold diff_value. f_equal. apply map_ext. intros [a c0]. f_equal. apply map_ext. intros [b c1]. f_equal. apply tensor_ext.
  intros m Hm. unfold coordinate. cbn [parg_arr]. rewrite !V0 by congruence. reflexivity.
Qed.
(** On any other arguments: the matrix of all pairs of points. *)
Theorem C53_dense : forall (F : fops), flaws F -> forall pdf ks (L0 L1 : tdop F) C0 C1 o0 o1 G (x0 : parg F) x1 b0 b1,
  terms L0 (length ks) C0 -> terms L1 (length ks) C1 -> factors_differentiable pdf ks C0 C1 o0 o1 G ->
  is_grid x0 && match x1 with Some y => is_grid y | None => true end = false ->
  points [length ks] (parg_arr x0) (option_map parg_arr x1) b0 b1 ->
  exists d M, dt_init pdf ks L0 L1 = Ok d /\ dt_linop d x0 x1 = Ok M /\
    cov_matrix M b0 b1 o0 o1 (fun i j o q => diff_value (length ks) C0 C1 (fun m p r => G m p r o q)
      (coordinate (parg_arr x0) i) (coordinate (second (parg_arr x0) (option_map parg_arr x1)) j)).
Proof.
  intros F LF pdf ks L0 L1 C0 C1 o0 o1 G x0 x1 b0 b1 T0 T1 D NG HP.
  destruct (dt_init_ok pdf ks o0 o1 G L0 L1 C0 C1 T0 T1 D) as [d [I [K [_ [_ [O0 [O1 _]]]]]]]. exists d. unfold dt_linop.
  replace (is_grid x0 && match x1 with | Some y => is_grid y | None => true end) with false by congruence.
  rewrite K, O0, O1.
  destruct (all_pairs_ok (dt_call d) (tp_in ks) o0 o1 (parg_arr x0) (option_map parg_arr x1) b0 b1
    (fun o q u v => diff_value (length ks) C0 C1 (fun m p r => G m p r o q) (fun m => u [m]) (fun m => v [m])) HP) as [M [EM HM]].
  - intros X0 X1 c0 c1 b E0 E1 B.
    destruct (dt_evaluate_ok LF pdf ks L0 L1 C0 C1 d T0 T1 o0 o1 G D I (@k_call F) X0 (Some X1) c0 c1 b) as [a [Ea Ha]]; [intros k g HV; apply (hv_call _ _ _ _ HV)|split; assumption|exact B|]. exists a. split; [exact Ea|exact Ha].
  - exists M. auto.
Qed.
(** Hence on one grid the Kronecker sums equal the dense matrix. *)
Theorem C53_kronecker_dense : forall (F : fops), flaws F -> forall pdf ks (L0 L1 : tdop F) C0 C1 G fs (g0 : parg F),
  terms L0 (length ks) C0 -> terms L1 (length ks) C1 -> factors_differentiable pdf ks C0 C1 [] [] G ->
  length fs = length ks -> mk_grid fs IJ = Ok g0 ->
  exists d M M', dt_init pdf ks L0 L1 = Ok d /\ dt_linop d g0 None = Ok M /\ dt_linop d (PArr (parg_arr g0)) None = Ok M' /\ mat_eq M M'.
Proof.
  intros F LF pdf ks L0 L1 C0 C1 G fs g0 T0 T1 D Lf E0.
  destruct (C53_kronecker F LF pdf ks L0 L1 C0 C1 G fs g0 T0 T1 D Lf E0) as [d [M [I [EM HM]]]].
  destruct (mk_grid_inv _ _ _ E0) as [N0 _]. destruct (C29_grid F fs N0) as [x0 [Ex [S0 _]]]. rewrite E0 in Ex. injection Ex as ->.
  destruct (C53_dense F LF pdf ks L0 L1 C0 C1 [] [] G (PArr x0) None (sizes fs) (sizes fs) T0 T1 D) as [d' [M' [I' [EM' HM']]]]; [reflexivity| |].
  - unfold sizes in *. rewrite map_length in S0. split; cbn [parg_arr option_map second]; congruence.
  - rewrite I in I'. injection I' as <-. exists d, M, M'. repeat (split; [assumption|]). apply (cov_matrix_eq _ _ _ _ _ HM HM').
Qed.

(** Arrays derived from a grid have no factors. *)
Theorem C53_derived_grid_refuted : forall (F : fops) (d : dtensor F) fs ix g0 f, mk_grid fs ix = Ok g0 ->
  dt_linop d (parg_map f g0) None = Err AttributeError /\ dt_linop d (parg_map f g0) (Some g0) = Err AttributeError.
Proof.
  intros F d fs ix g0 f H. destruct (mk_grid_inv _ _ _ H) as [N NI]. destruct (mk_grid_ok fs ix N NI) as [x [E _]].
  rewrite H in E. injection E as ->. split; reflexivity.
Qed.

(** ** Application *)
Definition nontrivial {F : fops} (L : tdop F) : Prop := match L with TPartial a => mi_order a <> 0 | TOther _ => True end.
(** The identity of the code: the partial derivative of order zero. *)
Definition id_terms (F : fops) (n : nat) : list (mi * F) := [(mi_of [n] (fun _ => 0), f1)].
Lemma identity_terms (F : fops) n : terms (td_identity (F := F) [n]) n (id_terms F n).
Proof.
  split; [discriminate|]. split; [|reflexivity]. intros a c [E|[]]. injection E as <- <-. split; [|reflexivity].
  apply (is_wf _ [n] (fun _ => 0)). apply mi_of_is.
Qed.
Lemma zero_order n : mi_order (mi_of [n] (fun _ => 0)) = 0.
Proof.
  unfold mi_order, mi_of. cbn [mi_arr]. induction (all_indices [n]) as [|i l IH]; [reflexivity|]. cbn. exact IH.
Qed.
Lemma apply_nontrivial {F : fops} pdf (L : tdop F) k argnum : nontrivial L -> td_apply pdf L k argnum = td_register pdf L k argnum.
Proof. intros N. destruct L as [a|c]; [|reflexivity]. cbn [td_apply nontrivial] in *. destruct (Nat.eqb_spec (mi_order a) 0); [contradiction|reflexivity]. Qed.
(** Applying an operator to one argument of a tensor product gives the object for this
    operator and the identity; applying another one to the other argument afterwards gives
    the object for both, in either order the same. *)
Theorem C53_application : forall (F : fops) pdf (ks : list (kfun F)) L0 L1 C0 C1 G G0 G1,
  tp_out0 ks = [] -> tp_out1 ks = [] ->
  nontrivial L0 -> nontrivial L1 -> td_dom L0 = [length ks] -> td_dom L1 = [length ks] -> td_cod L0 = [] -> td_cod L1 = [] ->
  terms L0 (length ks) C0 -> terms L1 (length ks) C1 ->
  factors_differentiable pdf ks C0 C1 [] [] G ->
  factors_differentiable pdf ks C0 (id_terms F (length ks)) [] [] G0 -> factors_differentiable pdf ks (id_terms F (length ks)) C1 [] [] G1 ->
  exists d0 d1 d, td_apply pdf L0 (TBase ks) 0 = Ok (TDiff d0) /\ dt_init pdf ks L0 (td_identity [length ks]) = Ok d0 /\
    td_apply pdf L1 (TBase ks) 1 = Ok (TDiff d1) /\ dt_init pdf ks (td_identity [length ks]) L1 = Ok d1 /\
    td_apply pdf L1 (TDiff d0) 1 = Ok (TDiff d) /\ td_apply pdf L0 (TDiff d1) 0 = Ok (TDiff d) /\ dt_init pdf ks L0 L1 = Ok d.
Proof.
  intros F pdf ks L0 L1 C0 C1 G G0 G1 O0 O1 N0 N1 D0 D1 E0 E1 T0 T1 FD FD0 FD1.
  rewrite !apply_nontrivial by assumption.
  destruct (dt_init_ok pdf ks [] [] G0 L0 (td_identity [length ks]) C0 _ T0 (identity_terms F _) FD0) as [d0 [I0 [K0 [L00 [L01 [S0 [S1 _]]]]]]].
  destruct (dt_init_ok pdf ks [] [] G1 (td_identity [length ks]) L1 _ C1 (identity_terms F _) T1 FD1) as [d1 [I1 [K1 [L10 [L11 [S2 [S3 _]]]]]]].
  destruct (dt_init_ok pdf ks [] [] G L0 L1 C0 C1 T0 T1 FD) as [d [I _]].
  exists d0, d1, d. rewrite !apply_nontrivial by assumption. unfold td_register, td_validate, tp_in. cbn [Nat.ltb Nat.leb Nat.eqb].
  rewrite K0, K1, S1, S2, L00, L01, L10, L11, O0, O1, D0, D1, E0, E1. rewrite !shape_eqb_refl. change (shape_eqb [] []) with true. cbn [negb bind].
  rewrite I0, I1. cbn [td_order td_identity bind]. rewrite zero_order. cbn [Nat.eqb]. rewrite I. cbn [bind]. auto 10.
Qed.
(** Wrong argument numbers and shapes are rejected. *)
Theorem C53_validation : forall (F : fops) pdf (ks : list (kfun F)) L argnum, nontrivial L ->
  argnum > 1 \/ td_dom L <> [length ks] \/ (argnum = 0 /\ td_cod L <> tp_out0 ks) \/ (argnum = 1 /\ td_cod L <> tp_out1 ks) ->
  td_apply pdf L (TBase ks) argnum = Err ValueError.
Proof.
  intros F pdf ks L argnum N H. rewrite apply_nontrivial by exact N. unfold td_register, td_validate, tp_in.
  destruct (Nat.ltb_spec 1 argnum); [reflexivity|]. destruct (shape_eqb_spec [length ks] (td_dom L)) as [E|E]; [|reflexivity]. cbn [negb].
  destruct H as [H|[H|[[-> H]|[-> H]]]]; [lia|congruence| |]; cbn [Nat.eqb].
  - destruct (shape_eqb_spec (tp_out0 ks) (td_cod L)); [congruence|reflexivity].
  - destruct (shape_eqb_spec (tp_out1 ks) (td_cod L)); [congruence|reflexivity].
Qed.
(** Partial derivatives of order zero return their argument. *)
Theorem C53_order_zero : forall (F : fops) pdf (k : tkern F) a argnum, mi_order a = 0 -> td_apply pdf (TPartial a) k argnum = Ok k.
Proof. intros F pdf k a argnum H. cbn [td_apply]. now rewrite H. Qed.
(** A second operator on the same argument never gives a covariance function: the object
    [NotImplemented] is returned after a partial derivative, any other operator before it
    has no attribute [order]. *)
Theorem C53_repeated_refuted : forall (F : fops) pdf (d : dtensor F) L argnum, argnum <= 1 -> nontrivial L ->
  td_dom L = [length (dt_k d)] -> td_cod L = (if argnum =? 0 then dt_out0 d else dt_out1 d) ->
  nontrivial (if argnum =? 0 then dt_L0 d else dt_L1 d) ->
  td_apply pdf L (TDiff d) argnum =
    match (if argnum =? 0 then dt_L0 d else dt_L1 d) with TPartial _ => Ok TNotImplemented | TOther _ => Err AttributeError end.
Proof.
  intros F pdf d L argnum A N D C H. rewrite apply_nontrivial by exact N. unfold td_register, td_validate, tp_in.
  destruct (Nat.ltb_spec 1 argnum); [lia|]. rewrite D, C, !shape_eqb_refl. cbn [negb bind].
  destruct (if argnum =? 0 then dt_L0 d else dt_L1 d) as [a|c]; cbn [td_order bind nontrivial] in *; [|reflexivity].
  destruct (Nat.eqb_spec (mi_order a) 0); [contradiction|reflexivity].
Qed.
(** Operators that vanish identically (no terms) and operators on vector-valued outputs
    (no terms with the index [()]) are accepted by the validation but raise IndexError and
    KeyError. *)
Theorem C53_no_terms : forall (F : fops) pdf (ks : list (kfun F)) c, In ([], []) (c_dict c) -> NoDup (map fst (c_dict c)) ->
  c_dom c = [length ks] -> c_cod c = tp_out0 ks -> td_apply pdf (TOther c) (TBase ks) 0 = Err IndexError.
Proof.
  intros F pdf ks c H D E0 E1. cbn [td_apply]. unfold td_register, td_validate, tp_in. cbn [Nat.ltb Nat.leb Nat.eqb td_dom td_cod].
  rewrite E0, E1, !shape_eqb_refl. cbn [negb bind]. unfold dt_init. cbn [td_coeffs bind]. unfold c_get at 1. rewrite (in_dget _ _ _ ci_eqb_spec _ _ _ D H). cbn [bind].
  rewrite (terms_ok _ _ _ (identity_terms F (length ks))). reflexivity.
Qed.
Theorem C53_vector_valued : forall (F : fops) pdf (ks : list (kfun F)) c, (forall C, ~ In ([], C) (c_dict c)) ->
  c_dom c = [length ks] -> c_cod c = tp_out0 ks -> td_apply pdf (TOther c) (TBase ks) 0 = Err KeyError.
Proof.
  intros F pdf ks c H E0 E1. cbn [td_apply]. unfold td_register, td_validate, tp_in. cbn [Nat.ltb Nat.leb Nat.eqb td_dom td_cod].
  rewrite E0, E1, !shape_eqb_refl. cbn [negb bind]. unfold dt_init. cbn [td_coeffs bind]. unfold c_get at 1.
  destruct (dget ci_eqb (c_dict c) []) as [C|] eqn:E; [|reflexivity]. apply (dget_in _ _ _ ci_eqb_spec) in E. destruct (H C E).
Qed.

(** ** Examples *)
(** Factors [exp (2 x + 3 y)], the partial derivative in the first coordinate and the
    Laplacian. *)
Local Open Scope R_scope.
Definition ex_expG (m i j : nat) (s t : R) : R := 2 ^ i * 3 ^ j * exp (2 * s + 3 * t).
Definition ex_kexp : kfun RF := KLeaf (F := RF) [] [] [] (fun x y _ _ => exp (2 * x [] + 3 * y [])).
Definition ex_pdf (argnum : nat) (a : mi) (k : kfun RF) : result (kfun RF) :=
  match k with
  | KLeaf i o0 o1 v => Ok (KLeaf i o0 o1 (fun x y o q => (if Nat.eqb argnum 0 then 2 else 3) ^ (mi_order a) * v x y o q))
  | _ => Err Unmodelled
  end.
Definition ex_L0 : tdop RF := TPartial (MI [2%nat] [1%nat; 0%nat]).
Definition ex_C1 : list (mi * RF) := [(MI [2%nat] [2%nat; 0%nat], 1); (MI [2%nat] [0%nat; 2%nat], 1)].
Definition ex_L1 : tdop RF := TOther (Coeffs [([], ex_C1)] [2%nat] []).
Example C53_ex_derivatives : forall T0 T1, derivatives 2 T0 T1 ex_expG.
Proof.
  intros T0 T1 m i j s t _. unfold ex_expG. split; intros _ _; (auto_derive; [exact Logic.I|]); cbn [pow]; ring.
Qed.
Example C53_ex_terms : terms ex_L0 2 [(MI [2%nat] [1%nat; 0%nat], 1)] /\ terms ex_L1 2 ex_C1.
Proof.
  split; (split; [discriminate|]).
  - split; [|reflexivity]. intros a c [E|[]]. injection E as <- <-. split; reflexivity.
  - split; [|split; [now left|repeat constructor; easy]]. intros a c [E|[E|[]]]; injection E as <- <-; split; reflexivity.
Qed.
Example C53_ex_factors : factors_differentiable ex_pdf [ex_kexp; ex_kexp] [(MI [2%nat] [1%nat; 0%nat], 1)] ex_C1 [] [] (fun m i j _ _ => ex_expG m i j).
Proof.
  split; [discriminate|]. intros a c0 b c1 m k _ _ E. destruct m as [|[|m]]; cbn [nth_error] in E; [| |destruct m; discriminate]; injection E as <-.
  all: eexists; eexists; split; [reflexivity|]; split; [reflexivity|]; apply leaf_values; intros x y o q; unfold ex_expG;
    unfold mi_order; cbn [mi_arr list_sum fold_right Nat.eqb]; rewrite !Nat.add_0_r; match goal with |- ?u = ?w => change (@eq R u w) end; ring.
Qed.
(** A second grid of three points: the operator is 2 by 2. *)
Example C53_ex_second_grid : exists d g0 g1 M, dt_init (fun _ _ k => Ok k) [ex_k 1] (TPartial (MI [1%nat] [1%nat])) (td_identity [1%nat]) = Ok d /\
  mk_grid [ex_f [0; 1]%nat] IJ = Ok g0 /\ mk_grid [ex_f [5; 6; 7]%nat] IJ = Ok g1 /\ dt_linop d g0 (Some g1) = Ok M /\ nrows M = 2%nat /\ ncols M = 2%nat.
Proof. do 4 eexists. repeat split; reflexivity. Qed.

Print Assumptions C53_value.
Print Assumptions C53_kronecker_dense.
Print Assumptions C53_derivative.
Print Assumptions C53_application.
