(** C66: positive definite covariance functions: the Wendland covariance functions of points with
    one coordinate, products of them, and conditioning on values. *)
From Coq Require Import Reals Lra Lia ZArith FunctionalExtensionality.
From mathcomp Require Import all_ssreflect all_algebra.
From Verif Require Import Base NdArray NdData FunExprModel CovModel CovSpec CrossModel CrossSpec CrossKern BlockModel BlockSpec TensorModel TensorSpec TensorSchur PsdBase PsdIntegral MaternStrict PdeCondSpec
  WendlandModel WendlandProps WendPd Block2Spec MatPD Block2Props NormalModel CondModel CondSpec CondProofs CondPoint CondProps RealField LineCondProps.
From Verif Require ParamSpec PdeCondProps.
Set Implicit Arguments. Unset Strict Implicit. Unset Printing Implicit Defensive.
Import Order.TTheory GRing.Theory Num.Theory.
Local Open Scope ring_scope.
Notation Rf := [realFieldType of R].

(** * Covariance functions *)
(** For every smoothness the constructor accepts a Wendland covariance function of points with one
    coordinate; it is positive definite if its lengthscale is not zero. *)
Theorem C66_wendland : forall sh k len, size sh = 1%nat -> (forall i, valid_index sh i -> len i <> 0%R) ->
  exists w, mk_wendland sh (Z.of_nat k) len = Ok w /\ positive_definite sh (wendland_eval w).
Proof.
move=> sh k len O L; have [w H] := wendland_exists sh k len O.
by exists w; split=> //; apply: (wendland_pd sh k len).
Qed.
(** Products of positive definite functions of real numbers are positive definite functions of their
    coordinates. *)
Theorem C66_product : forall n (g : nat -> R -> R -> R), (forall m, (m < n)%coq_nat -> positive_definite_line (g m)) ->
  positive_definite [:: n] (fun x y => @tensor RF R n g (fun m => x [:: m]) (fun m => y [:: m])).
Proof. exact: tensor_pd. Qed.
(** [TensorProduct] of Wendland covariance functions of points of shape (): a positive definite
    function, with these values in the code. *)
Theorem C66_wendland_product : forall ws : seq wendland, List.Forall wend_factor ws -> ws <> [::] ->
  positive_definite [:: length ws] (wproduct ws) /\
  forall (x0 : nd RF) x1 b0 b1 b, points [:: length ws] x0 x1 b0 b1 -> broadcast_shapes b0 b1 = Ok b ->
    exists a, tp_call [seq wleaf w | w <- ws] x0 x1 = Ok a /\ cov_array a b [::] [::] (fun i _ _ =>
      wproduct ws (CrossModel.pt (F := RF) x0 (operand_index b0 i)) (CrossModel.pt (F := RF) (second x0 x1) (operand_index b1 i))).
Proof. by move=> ws H N; split; [exact: wproduct_pd | move=> x0 x1 b0 b1 b; exact: wproduct_call]. Qed.
(** The derivatives of orders at most [k] at points of shape (): the variance of a combination of them is
    nonnegative, and zero only if the weights of each derivative at each point add up to zero. *)
Theorem C66_wendland_derivatives : forall k len w, mk_wendland [::] (Z.of_nat k) len = Ok w -> len [::] <> 0%R -> forall l, (forall p, List.In p l -> (p.2.1 <= k)%coq_nat) ->
  Rle 0 (form (derivative_cov (wendland_eval w)) l) /\
  (form (derivative_cov (wendland_eval w)) l = 0%R -> forall phi : nat * R -> R, sumR (fun p => Rmult p.1 (phi p.2)) l = 0%R).
Proof. exact: wendland_derivatives. Qed.

(** * Conditioning on values *)
Section Points.
Variables (sh : shape) (K : array -> array -> R) (m : array -> R).
Hypothesis Hk : positive_definite sh K.
Variable chol : forall n : nat, 'M[R]_n -> 'M[R]_n.
Hypothesis cholP : chol_spec (F := Rf) chol.
Variable tri : bool.
Definition pd_prior : gp Rf array := GP (m : fn Rf array) (K : array -> fn Rf array).
Notation g := pd_prior.
Lemma pd_adm : admissible (gmean g) (gcov g) (@point_functl Rf array) (@stencil_op Rf array).
Proof. by case: Hk => S [P _]; apply: point_admissible; apply: list_psd. Qed.
Lemma pd_good n (xs : 'I_n -> array) Y b : possemidef (noise_covm b) -> good_event (@point_functl Rf array) (@stencil_op Rf array) (Cond (point_obs xs Y b)).
Proof.
move=> B; split=> [i|] //.
by exists [:: (1, xs i)] => f; rewrite /component mxE /combo big_cons big_nil /= mul1r addr0.
Qed.
(** Interpolation: values at points no two of which have the same coordinates, without noise. *)
Theorem C66_interpolation : forall n (xs : 'I_n -> array) (Y : 'cV[R]_n), (forall i j, i != j -> ~ agree sh (xs i) (xs j)) ->
  let Kx := kmat (F := Rf) K xs xs in
  exists s, [/\ from_observations g (point_obs xs Y None) = Ok s, Kx \in unitmx,
    forall x, c_mean s x = m x + (kmat (F := Rf) K (fun _ : 'I_1 => x) xs *m invmx Kx *m (Y - \col_i m (xs i))) 0 0,
    forall x y, c_cov s x (Some y) = Ok (K x y - (kmat (F := Rf) K (fun _ : 'I_1 => x) xs *m invmx Kx *m kmat (F := Rf) K xs (fun _ : 'I_1 => y)) 0 0) &
    forall i, c_mean s (xs i) = Y i 0].
Proof.
move=> n xs Y A Kx; have Ad := pd_adm; have G := pd_good xs Y (possemidef0 Rf n : possemidef (noise_covm None)); case: Hk => _ [_ N0].
have U : dgram (gcov g) (data_of id (point_obs xs Y None)) \in unitmx.
  apply: (C20_gram_invertible Ad G) => v Z; apply/colP=> i; rewrite [RHS]mxE.
  pose l : seq (R * array) := [seq (v j 0, xs j) | j <- enum 'I_n].
  have E (h : R * array -> R) : sumR h l = \sum_j h (v j 0, xs j) by rewrite PdeCondProps.sumR_big /l big_map big_enum.
  have N : nowhere sh l.
    apply: N0; rewrite /form E big1 // => j _; rewrite E.
    transitivity (v j 0 * combination (o_L (point_obs xs Y None)) v (gcov g (xs j))); last by rewrite Z mulr0.
    by rewrite /combination big_distrr; apply: eq_bigr => i' _; rewrite mxE /= mulrA.
  have := N (fun y => if PdeCondProps.agreeb sh (xs i) y then 1%R else 0%R); rewrite E (bigD1 i) //= big1 => [|j ji]; last first.
    by case: PdeCondProps.agreebP => [/A H|_]; [case: H; rewrite eq_sym | exact: Rmult_0_l].
  case: PdeCondProps.agreebP => [_|]; last by case.
  rewrite Rmult_1_l addr0; apply=> x y Axy; congr (if _ then _ else _); apply/PdeCondProps.agreebP/PdeCondProps.agreebP => H j Vj.
    by rewrite (H j Vj) (Axy j Vj).
  by rewrite (H j Vj) (Axy j Vj).
have EK : Kx = dgram (gcov g) (data_of id (point_obs xs Y None)).
  by apply/matrixP=> i j; rewrite !mxE addr0.
have UK : Kx + noise_covm (None : option (normal Rf n)) \in unitmx by rewrite addr0 EK.
have [s [R M C]] := C20_at_points cholP tri Ad Y (b := None) (possemidef0 Rf n) UK.
exists s; split=> //; first by rewrite EK.
- by move=> x; rewrite M /= addr0 subr0.
- by move=> x y; rewrite C /= addr0.
- move=> i; have [/colP/(_ i)] := C20_noise_free_data cholP tri Ad G U (erefl _) R.
  by rewrite !mxE subr0.
Qed.
(** Any sequence of noisy observations of values at any points, the same ones or not. *)
Record batch := Batch { b_size : nat; b_points : 'I_b_size -> array; b_data : 'cV[R]_b_size; b_noise : option (normal Rf b_size) }.
Definition batch_step (b : batch) : event Rf array := Cond (point_obs (b_points (b := b)) (b_data b) (b_noise b)).
Theorem C66_noisy : forall bs : seq batch, (forall b, List.In b bs -> posdef (noise_covm (b_noise b))) ->
  exists p, [/\ run chol tri (Plain g) [seq batch_step b | b <- bs] = Ok p,
    forall x, p_mean p x = spec_mean g (summarise [seq batch_step b | b <- bs]) x &
    forall x y, p_cov p x y = Ok (spec_cov g (summarise [seq batch_step b | b <- bs]) x (odflt x y))].
Proof.
move=> bs H; have Ad := pd_adm.
have G : good_events (@point_functl Rf array) (@stencil_op Rf array) [seq batch_step b | b <- bs].
  elim: bs H => [|b bs IH] H //=; split; last by apply: IH => c Hc; apply: H; right.
  exact: (pd_good (b_points (b := b)) (b_data b) (posdef_semi (H b (or_introl erefl)))).
have N : noisy_events [seq batch_step b | b <- bs].
  elim: bs H {G} => [|b bs IH] H //=; split; last by apply: IH => c Hc; apply: H; right.
  by apply: H; left.
exact: (C24_history cholP tri Ad G (C20_noisy_data Ad G N)).
Qed.
End Points.

Delimit Scope R_scope with Re.
(** * Examples *)
(** The C4 function on the line, its values at 0, 1 and 2. *)
Lemma wex_len : forall i, valid_index [::] i -> (fun _ : index => 2%Re) i <> 0%Re.
Proof. by move=> i _; lra. Qed.
Definition wex_points (i : 'I_3) : array := fun _ => INR i.
Lemma wex_differ (i j : 'I_3) : i != j -> ~ agree [::] (wex_points i) (wex_points j).
Proof. by move=> ij /(_ [::] (List.Forall2_nil _)) /INR_eq E; move/eqP: ij; apply; apply: val_inj. Qed.
Example C66_example : exists w, mk_wendland [::] (Z.of_nat 2) (fun _ => 2%Re) = Ok w /\ forall Y : 'cV[R]_3,
  exists s, from_observations (pd_prior (wendland_eval w) (fun _ => 0%Re)) (point_obs wex_points Y None) = Ok s /\ forall i, c_mean s (wex_points i) = Y i 0.
Proof.
have [w [E P]] := @C66_wendland [::] 2%nat (fun _ => 2%Re) erefl wex_len; exists w; split; [exact: E|] => Y; have [chol cholP] := C16_cholesky_contract_satisfiable [rcfType of R].
have [s [F _ _ _ I]] := C66_interpolation (fun _ => 0%Re) P cholP true Y wex_differ; exists s; split; [exact: F | exact: I].
Qed.
(** A product of two Wendland covariance functions, at three points of the plane. *)
Definition wex_plane (i : 'I_3) : array := fun j => if j is [:: 0%nat] then INR i else 5%Re.
Lemma wex_plane_differ (i j : 'I_3) : i != j -> ~ agree [:: 2%nat] (wex_plane i) (wex_plane j).
Proof.
move=> ij A; have /A /INR_eq E : valid_index [:: 2%nat] [:: 0%nat] by apply/NdArray.all_indices_spec; left.
by move/eqP: ij; apply; apply: val_inj.
Qed.
Example C66_product_example : exists w0 w1, wend_factor w0 /\ wend_factor w1 /\ forall Y : 'cV[R]_3,
  exists s, from_observations (pd_prior (wproduct [:: w0; w1]) (fun _ => 0%Re)) (point_obs wex_plane Y None) = Ok s /\ forall i, c_mean s (wex_plane i) = Y i 0.
Proof.
have [w0 [E0 _]] := @C66_wendland [::] 2%nat (fun _ => 2%Re) erefl wex_len; have [w1 [E1 _]] := @C66_wendland [::] 1%nat (fun _ => 2%Re) erefl wex_len.
have F0 : wend_factor w0 by exists 2%nat, (fun _ => 2%Re); split; [exact: E0 | lra].
have F1 : wend_factor w1 by exists 1%nat, (fun _ => 2%Re); split; [exact: E1 | lra].
exists w0, w1; split; [exact: F0|]; split; [exact: F1|] => Y {E0 E1}; have [chol cholP] := C16_cholesky_contract_satisfiable [rcfType of R].
have [P _] := @C66_wendland_product [:: w0; w1] (List.Forall_cons _ F0 (List.Forall_cons _ F1 (List.Forall_nil _))) ltac:(discriminate).
have [s [F _ _ _ I]] := C66_interpolation (fun _ => 0%Re) P cholP true Y wex_plane_differ; exists s; split; [exact: F | exact: I].
Qed.
Print Assumptions C66_wendland.
Print Assumptions C66_product.
Print Assumptions C66_wendland_product.
Print Assumptions C66_wendland_derivatives.
Print Assumptions C66_interpolation.
Print Assumptions C66_noisy.
