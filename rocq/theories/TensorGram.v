(** C61: Gram matrices of products of covariance functions of one variable, as the code
    computes them. *)
From Coq Require Import List Arith Lia Reals Lra Bool FunctionalExtensionality.
From Coquelicot Require Import Coquelicot.
From Verif Require Import Base NdArray NdData BlockModel BlockSpec CovModel CovSpec CrossModel CrossSpec FunExprModel DiffopModel DiffopSpec LfoModel LfoSpec KernelModel KernelSpec CrossKern
  ParamSpec ParamProofs TensorModel TensorSpec TensorProofs TensorDiffSpec TensorDeriv TensorProps TensorDiffProps PsdBase PsdMat PsdDiff SmoothSym StatChain MaternChain TensorObs TensorFactor.
Import ListNotations.
Local Open Scope R_scope.

(** The factor [m]. *)
Definition tfac (fs : list factor) (m : nat) : factor := nth m fs (FGauss 1).
(** The product of the covariance functions of the code. *)
Definition product (fs : list factor) (x y : array) : R :=
  @tensor RF R (length fs) (fun m s t => ceval (fac_cov (tfac fs m)) (fun _ => s) (fun _ => t)) (fun m => x [m]) (fun m => y [m]).
(** Nonzero lengthscales, and at least [T m] derivatives of the factor [m]. *)
Definition factors_ok (fs : list factor) (T : nat -> nat) : Prop :=
  forall m, (m < length fs)%nat -> fac_len (tfac fs m) <> 0 /\ fac_smooth (tfac fs m) (T m).
Notation fchain fs := (fun m => fac_chain (tfac fs m)).
Lemma product_prior fs T : factors_ok fs T -> product fs = prior (length fs) (fchain fs).
Proof.
  intros H. extensionality x. extensionality y. apply (@tensor_ext RF R). intros m Hm. rewrite fac_eval, fac_fun_chain by apply (H m Hm). unfold Gd, lk. cbn [fst snd Nat.add pow]. symmetry. apply Rmult_1_l.
Qed.
Lemma factors_chain fs T : factors_ok fs T -> forall m, (m < length fs)%nat -> chain (fac_chain (tfac fs m)) (T m).
Proof. intros H m Hm. destruct (H m Hm). now apply fac_chain_ok. Qed.

(** ** Factors *)
(** The code differentiates a factor at most twice in each argument, as often as the
    factor is differentiable, with the derivatives as values. *)
Theorem C61_factor_values : forall n f T i j, fac_len f <> 0 -> fac_smooth f T -> (i <= T)%nat -> (j <= T)%nat -> (i <= 2)%nat -> (j <= 2)%nat ->
  exists c1 c', ccall (S (S n)) (ODiff (DPartial (MI [] [j]))) (fac_cov f) 1 = Ok c1 /\ ccall (S (S n)) (ODiff (DPartial (MI [] [i]))) c1 0 = Ok c' /\
    forall x y, ceval c' x y = in_arg 0 (pderiv (MI [] [i])) (in_arg 1 (pderiv (MI [] [j])) (ceval (fac_cov f))) x y.
Proof.
  intros n f T i j H S Hi Hj Li Lj. destruct (fac_values n f T i j H S Hi Hj Li Lj) as (c1 & c' & E1 & E' & V). exists c1, c'. split; [exact E1|]. split; [exact E'|].
  intros x y. rewrite V. symmetry. change (pderiv (MI [] [i])) with (Nat.iter i (pd [])). change (pderiv (MI [] [j])) with (Nat.iter j (pd [])).
  replace (ceval (fac_cov f)) with (fun x y : array => fac_chain f 0 (x [] - y [])).
  - apply (both_upto _ T); auto. now apply fac_chain_ok.
  - extensionality x'. extensionality y'. now rewrite fac_eval, fac_fun_chain by exact H.
Qed.
(** Three or more derivatives: the object [NotImplemented]. *)
Theorem C61_factor_order_refuted : forall n f i a, (3 <= i)%nat -> a = 0%nat \/ a = 1%nat -> ccall (S n) (ODiff (DPartial (MI [] [i]))) (fac_cov f) a = Ok CNotImpl.
Proof.
  intros n f i a H A. assert (E : exists j, i = S (S (S j))) by (exists (i - 3)%nat; lia). destruct E as [j ->].
  destruct A as [-> | ->], f as [l|p l]; reflexivity.
Qed.

(** ** Products *)
Definition leaf (c : cov) : kfun RF := KLeaf (F := RF) [] [] [] (fun x y _ _ => ceval c x y).
Definition leaves (fs : list factor) : list (kfun RF) := map (fun f => leaf (fac_cov f)) fs.
(** Derivatives of the factors ([pdf], a parameter of the model of [TensorProduct]) are those
    of the calls in the model of the covariance functions. *)
Definition follows (n : nat) (fs : list factor) (T : nat -> nat) (pdf : nat -> mi -> kfun RF -> result (kfun RF)) : Prop :=
  forall m a b c1 c', (m < length fs)%nat -> (a <= T m)%nat -> (b <= T m)%nat ->
    ccall (S (S n)) (ODiff (DPartial (MI [] [b]))) (fac_cov (tfac fs m)) 1 = Ok c1 -> ccall (S (S n)) (ODiff (DPartial (MI [] [a]))) c1 0 = Ok c' ->
    exists k1, pdf 1%nat (MI [] [b]) (leaf (fac_cov (tfac fs m))) = Ok k1 /\ pdf 0%nat (MI [] [a]) k1 = Ok (leaf c').
Lemma leaves_length fs : length (leaves fs) = length fs. Proof. apply map_length. Qed.
Lemma nth_leaves fs m k : nth_error (leaves fs) m = Some k -> (m < length fs)%nat /\ k = leaf (fac_cov (tfac fs m)).
Proof.
  intros H. assert (L : (m < length fs)%nat) by (rewrite <- leaves_length; apply nth_error_Some; congruence). split; [exact L|].
  unfold leaves in H. rewrite nth_error_map, (nth_error_nth' fs (FGauss 1) L) in H. now injection H as <-.
Qed.
(** The values of the covariance function are the products of those of the factors. *)
Theorem C61_prior : forall fs (x0 : nd RF) x1 b0 b1 b, fs <> [] -> points [length fs] x0 x1 b0 b1 -> broadcast_shapes b0 b1 = Ok b ->
  exists a, tp_call (leaves fs) x0 x1 = Ok a /\ cov_array a b [] [] (fun i _ _ =>
    product fs (CrossModel.pt (F := RF) x0 (operand_index b0 i)) (CrossModel.pt (F := RF) (second x0 x1) (operand_index b1 i))).
Proof.
  intros fs x0 x1 b0 b1 b N P B.
  destruct (C29_value RF RF_laws (leaves fs) [] [] (fun m _ _ s t => ceval (fac_cov (tfac fs m)) (fun _ => s) (fun _ => t)) x0 x1 b0 b1 b) as (a & _ & E & _ & V & _).
  - split; [destruct fs; [congruence|discriminate]|]. intros m k Hk. apply nth_leaves in Hk as [_ ->]. apply (leaf_values (F := RF)). intros x y _ _. exact (fac_point _ x y).
  - rewrite leaves_length. exact P.
  - exact B.
  - exists a. split; [exact E|]. rewrite leaves_length in V. exact V.
Qed.
Section Diff.
Variables (n : nat) (fs : list factor) (T : nat -> nat) (pdf : nat -> mi -> kfun RF -> result (kfun RF)).
Hypotheses (N : fs <> []) (H : factors_ok fs T) (T2 : forall m, (m < length fs)%nat -> (T m <= 2)%nat) (Hpdf : follows n fs T pdf).
Variables (L0 L1 : tdop RF) (C0 C1 : list (mi * R)).
Hypotheses (H0 : terms L0 (length fs) C0) (H1 : terms L1 (length fs) C1) (O0 : orders_upto (length fs) T C0) (O1 : orders_upto (length fs) T C1).
Let G (m i j : nat) (_ _ : index) : R -> R -> R := Gd (fchain fs) m i j.
Lemma product_factors : factors_differentiable pdf (leaves fs) C0 C1 [] [] G.
Proof.
  split; [intros E; apply N; now apply map_eq_nil in E|]. intros a c0 b c1 m k Ha Hb Hk. apply nth_leaves in Hk as [Hm ->]. destruct (O0 a c0 Ha) as [_ La], (O1 b c1 Hb) as [_ Lb].
  destruct (H m Hm) as [Hl Hs]. specialize (La m Hm). specialize (Lb m Hm). pose proof (T2 m Hm) as Tm.
  destruct (fac_values n (tfac fs m) (T m) (mi_entry a [m]) (mi_entry b [m]) Hl Hs La Lb ltac:(lia) ltac:(lia)) as (d1 & d' & E1 & E' & V).
  destruct (Hpdf m _ _ d1 d' Hm La Lb E1 E') as (k1 & K1 & K'). exists k1, (leaf d'). split; [exact K1|]. split; [exact K'|]. apply (leaf_values (F := RF)). intros x y o q. exact (V x y).
Qed.
Lemma product_value x y : @diff_value RF R (length fs) C0 C1 (Gd (fchain fs)) (fun m => x [m]) (fun m => y [m]) = apply_terms C0 (fun x' => apply_terms C1 (product fs x') y) x.
Proof.
  rewrite (product_prior fs T H). symmetry. apply (C53_derivative (length fs) T T C0 C1 (Gd (fchain fs)) x y); auto. apply Gd_derivatives. now apply factors_chain.
Qed.
End Diff.
(** For operators [L0] and [L1] with the terms [C0] and [C1], which differentiate the factor
    [m] at most [T m <= 2] times: the arrays hold [L0] and [L1] applied to the product. *)
Theorem C61_gram_entry : forall n fs T pdf (L0 L1 : tdop RF) C0 C1 x0 x1 b0 b1 b, fs <> [] -> factors_ok fs T -> (forall m, (m < length fs)%nat -> (T m <= 2)%nat) -> follows n fs T pdf ->
  terms L0 (length fs) C0 -> terms L1 (length fs) C1 -> orders_upto (length fs) T C0 -> orders_upto (length fs) T C1 ->
  points [length fs] x0 x1 b0 b1 -> broadcast_shapes b0 b1 = Ok b ->
  exists d a, dt_init pdf (leaves fs) L0 L1 = Ok d /\ dt_call d x0 x1 = Ok a /\ cov_array a b [] [] (fun i _ _ =>
    apply_terms C0 (fun x => apply_terms C1 (product fs x) (CrossModel.pt (F := RF) (second x0 x1) (operand_index b1 i))) (CrossModel.pt (F := RF) x0 (operand_index b0 i))).
Proof.
  intros n fs T pdf L0 L1 C0 C1 x0 x1 b0 b1 b N H T2 Hpdf H0 H1 O0 O1 P B.
  pose proof (product_factors n fs T pdf N H T2 Hpdf C0 C1 O0 O1) as FD. rewrite <- (leaves_length fs) in H0, H1, P.
  destruct (C53_value RF RF_laws pdf (leaves fs) L0 L1 C0 C1 [] [] _ x0 x1 b0 b1 b H0 H1 FD P B) as (d & a & _ & I & E & _ & V & _).
  exists d, a. split; [exact I|]. split; [exact E|]. rewrite leaves_length in V. destruct V as [V1 V2]. split; [exact V1|]. intros i o q Hi Ho Hq. rewrite (V2 i o q Hi Ho Hq).
  exact (product_value fs T H C0 C1 O0 O1 (CrossModel.pt (F := RF) x0 (operand_index b0 i)) (CrossModel.pt (F := RF) (second x0 x1) (operand_index b1 i))).
Qed.
(** The Gram matrix of observations of [L0] and [L1] at points, and that of all points of a
    grid as sum of Kronecker products. *)
Theorem C61_gram_matrix : forall n fs T pdf (L0 L1 : tdop RF) C0 C1, fs <> [] -> factors_ok fs T -> (forall m, (m < length fs)%nat -> (T m <= 2)%nat) -> follows n fs T pdf ->
  terms L0 (length fs) C0 -> terms L1 (length fs) C1 -> orders_upto (length fs) T C0 -> orders_upto (length fs) T C1 ->
  exists d, dt_init pdf (leaves fs) L0 L1 = Ok d /\
    (forall x0 x1 b0 b1, points [length fs] x0 (Some x1) b0 b1 -> exists M, dt_linop d (PArr x0) (Some (PArr x1)) = Ok M /\ cov_matrix M b0 b1 [] [] (fun i j _ _ =>
      apply_terms C0 (fun x => apply_terms C1 (product fs x) (CrossModel.pt (F := RF) x1 j)) (CrossModel.pt (F := RF) x0 i))) /\
    (forall gs g0, length gs = length fs -> mk_grid gs IJ = Ok g0 -> exists M, dt_linop d g0 None = Ok M /\ cov_matrix M (sizes gs) (sizes gs) [] [] (fun i j _ _ =>
      apply_terms C0 (fun x => apply_terms C1 (product fs x) (CrossModel.pt (F := RF) (parg_arr g0) j)) (CrossModel.pt (F := RF) (parg_arr g0) i))).
Proof.
  intros n fs T pdf L0 L1 C0 C1 N H T2 Hpdf H0 H1 O0 O1.
  pose proof (product_factors n fs T pdf N H T2 Hpdf C0 C1 O0 O1) as FD. rewrite <- (leaves_length fs) in H0, H1.
  destruct (C53_summands RF RF_laws pdf (leaves fs) L0 L1 C0 C1 [] [] _ H0 H1 FD) as (d & I & _). exists d. split; [exact I|].
  assert (X : forall M r c (u v : index -> array), cov_matrix M r c [] [] (fun i j o q => @diff_value RF R (length fs) C0 C1 (Gd (fchain fs)) (fun m => u i [m]) (fun m => v j [m])) ->
     cov_matrix M r c [] [] (fun i j o q => apply_terms C0 (fun x => apply_terms C1 (product fs x) (v j)) (u i))).
  { intros M r c u v (A1 & A2 & A3). split; [exact A1|]. split; [exact A2|]. intros i j o q Hi Hj Ho Hq. rewrite (A3 i j o q Hi Hj Ho Hq). apply (product_value fs T H C0 C1 O0 O1). }
  split.
  - intros x0 x1 b0 b1 P. rewrite <- (leaves_length fs) in P.
    destruct (C53_dense RF RF_laws pdf (leaves fs) L0 L1 C0 C1 [] [] _ (PArr x0) (Some (PArr x1)) b0 b1 H0 H1 FD eq_refl P) as (d' & M & I' & E & V).
    rewrite I in I'. injection I' as <-. exists M. split; [exact E|]. rewrite leaves_length in V. exact (X M b0 b1 (CrossModel.pt (F := RF) x0) (CrossModel.pt (F := RF) x1) V).
  - intros gs g0 L Hg. rewrite <- (leaves_length fs) in L.
    destruct (C53_kronecker RF RF_laws pdf (leaves fs) L0 L1 C0 C1 _ gs g0 H0 H1 FD L Hg) as (d' & M & I' & E & V).
    rewrite I in I'. injection I' as <-. exists M. split; [exact E|]. rewrite leaves_length in V. exact (X M (sizes gs) (sizes gs) (CrossModel.pt (F := RF) (parg_arr g0)) (CrossModel.pt (F := RF) (parg_arr g0)) V).
Qed.

(** ** Examples *)
(** Time: squared exponential; space: Matérn 5/2; exact derivatives of the factors. *)
Definition tex_fs : list factor := [FGauss 2; FMat 2 3].
Definition tex_T : nat -> nat := fun _ => 2%nat.
Definition tex_pdf (argnum : nat) (a : mi) (k : kfun RF) : result (kfun RF) :=
  match k with
  | KLeaf i o0 o1 v => Ok (KLeaf (F := RF) i o0 o1 (fun x y o q => in_arg argnum (pderiv a) (fun x y => v x y o q) x y))
  | _ => Err Unmodelled
  end.
Example tex_factors : factors_ok tex_fs tex_T.
Proof. intros m Hm. destruct m as [|[|m]]; cbn in *; [split; [lra|trivial]|split; [lra|unfold tex_T; lia]|lia]. Qed.
Example tex_follows : follows 0 tex_fs tex_T tex_pdf.
Proof.
  intros m a b c1 c' Hm Ha Hb E1 E'. destruct (tex_factors m Hm) as [Hl Hs]. unfold tex_T in Ha, Hb.
  destruct (C61_factor_values 0 (tfac tex_fs m) 2 a b Hl Hs Ha Hb Ha Hb) as (d1 & d' & F1 & F' & V). rewrite E1 in F1. injection F1 as <-. rewrite E' in F'. injection F' as <-.
  eexists. split; [reflexivity|]. cbn [tex_pdf]. f_equal. unfold leaf. f_equal. extensionality x. extensionality y. extensionality o. extensionality q. symmetry. apply V.
Qed.
(** The heat operator: the first coordinate is time. *)
Definition heat : list (mi * R) := [(MI [2%nat] [1%nat; 0%nat], 1); (MI [2%nat] [0%nat; 2%nat], -1)].
Definition heat_op : tdop RF := TOther (Coeffs (F := RF) [([], heat)] [2%nat] []).
Example heat_terms : terms heat_op 2 heat /\ orders_upto 2 tex_T heat.
Proof.
  split.
  - split; [discriminate|]. split; [|split; [now left|repeat constructor; easy]]. intros a c [E|[E|[]]]; injection E as <- <-; split; reflexivity.
  - intros a c [E|[E|[]]]; injection E as <- <-; (split; [reflexivity|]); intros m Hm; unfold tex_T; destruct m as [|[|m]]; cbn; lia.
Qed.
(** The heat operator on exponential functions. *)
Definition symbol (z : array) : R := z [0%nat] - z [1%nat] ^ 2.
Lemma heat_lexp z x : apply_terms heat (lexp [2%nat] z) x = symbol z * lexp [2%nat] z x.
Proof.
  unfold symbol.
  assert (v0 : valid_index [2%nat] [0%nat]) by (constructor; [lia|constructor]). assert (v1 : valid_index [2%nat] [1%nat]) by (constructor; [lia|constructor]).
  unfold apply_terms, heat, total. cbn [map fold_right]. change (pderiv (MI [2%nat] [1%nat; 0%nat]) (lexp [2%nat] z)) with (pd [0%nat] (lexp [2%nat] z)).
  change (pderiv (MI [2%nat] [0%nat; 2%nat]) (lexp [2%nat] z)) with (pd [1%nat] (pd [1%nat] (lexp [2%nat] z))).
  rewrite !lexp_pd by assumption. rewrite lexp_scal_pd by assumption. ring.
Qed.
Lemma symbol_values a b x : symbol (fun i => match i with [0%nat] => a | _ => b end) = a - b ^ 2 /\ 0 < lexp [2%nat] (fun i => match i with [0%nat] => a | _ => b end) x.
Proof. split; [reflexivity|apply exp_pos]. Qed.
Lemma heat_system u w x : (forall z, u * (2 * lexp [2%nat] z x) + w * (2 * (symbol z * lexp [2%nat] z x)) = 0) -> u = 0 /\ w = 0.
Proof.
  intros H. destruct (symbol_values 0 0 x) as [S0 P0], (symbol_values 1 0 x) as [S1 P1].
  pose proof (H (fun i => match i with [0%nat] => 0 | _ => 0 end)) as H0. pose proof (H (fun i => match i with [0%nat] => 1 | _ => 0 end)) as H1. rewrite S0 in H0. rewrite S1 in H1.
  set (l0 := lexp _ _ _) in *. set (l1 := lexp _ _ _) in H1, P1. clearbody l0 l1. assert (u = 0) by nra. subst u. split; [reflexivity|]. nra.
Qed.
Print Assumptions C61_factor_values. Print Assumptions C61_prior. Print Assumptions C61_gram_entry. Print Assumptions C61_gram_matrix.
