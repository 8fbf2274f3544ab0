(** C61 for sums of multiples: conditioning on derivatives at points, for sums of positive
    multiples of products of squared exponential and Matérn covariance functions. *)
From Coq Require Import Reals Lra Lia FunctionalExtensionality.
From mathcomp Require Import all_ssreflect all_algebra.
From Verif Require Import Base NdArray FunExprModel DiffopModel DiffopSpec LfoModel LfoSpec LfoSmooth KernelModel KernelSpec TensorSchur PsdBase PsdMat PdeCondSpec SmoothSym TensorSpec TensorDeriv StatChain TensorStrict TensorObs TensorFactor TensorGram
  Block2Spec MatPD Block2Props NormalModel CondModel CondSpec CondProofs CondProps RealField TensorCond TensorCondProps TensorMix.
From Verif Require ParamSpec PdeCondProps.
Set Implicit Arguments. Unset Strict Implicit. Unset Printing Implicit Defensive.
Import Order.TTheory GRing.Theory Num.Theory.
Local Open Scope ring_scope.
Delimit Scope R_scope with Re.

(** The prior process with mean [m] and the covariance function
    [s_1 * TensorProduct(...) + s_2 * TensorProduct(...) + ...]. *)
Definition mixture_gp (m : array -> R) (ms : seq (R * seq factor)) : gp Rf array := GP (m : fn Rf array) (mixture ms : array -> fn Rf array).

Section Mixture.
Variables (n : nat) (T : nat -> nat) (ms : seq (R * seq factor)) (m : array -> R).
Hypotheses (Hms : mixture_ok n T ms) (Hm : regular n T m).
Variable chol : forall n : nat, 'M[R]_n -> 'M[R]_n.
Hypothesis cholP : chol_spec (F := Rf) chol.
Variable tri : bool.
Notation g := (mixture_gp m ms).
Let HR : forall s, tdom n T s -> regular n T (fun x => tfun s (mixture ms x)). Proof. by move=> s; apply: mixture_section. Qed.
Let HS : forall s t, tdom n T s -> tdom n T t -> kcov (mixture ms) s t = kcov (mixture ms) t s. Proof. by move=> s t; apply: mixture_sym. Qed.
Let HN : forall s, tdom n T s -> 0 <= kcov (mixture ms) s s. Proof. by move=> s D; exact: (proj1 (mixture_nonneg_null Hms D)). Qed.
(** The assumptions of the theorems on conditioning (C20-C24) hold. *)
Theorem C61_mixture_admissible : admissible (gmean g) (gcov g) (tensor_functl n T) tensor_op /\
  forall es, all_of (tensor_ok n T) es -> good_events (tensor_functl n T) tensor_op [seq tensor_step e | e <- es].
Proof. by split; [exact: (kernel_admissible HR HS HN Hm) | exact: kgood]. Qed.
(** Noisy observations. *)
Theorem C61_mixture_noisy : forall es, all_of (tensor_ok n T) es -> all_of tensor_noisy es ->
  exists p, [/\ run chol tri (Plain g) [seq tensor_step e | e <- es] = Ok p,
    forall x, p_mean p x = spec_mean g (summarise [seq tensor_step e | e <- es]) x,
    forall x y, p_cov p x y = Ok (spec_cov g (summarise [seq tensor_step e | e <- es]) x (odflt x y)) &
    forall q (xs : 'I_q -> array), possemidef (\matrix_(i, j) spec_cov g (summarise [seq tensor_step e | e <- es]) (xs i) (xs j))].
Proof. by move=> es H N; apply: (khistory HR HS HN Hm cholP tri H); apply: (knoisy_history HR HS HN Hm H). Qed.
(** One summand at least; without noise: no combination of the observations vanishes on all
    infinitely differentiable functions. *)
Theorem C61_mixture_independent : ms <> [::] -> forall es, all_of (tensor_ok n T) es -> independent_tensor n (summarise [seq tensor_step e | e <- es]) ->
  exists p, [/\ run chol tri (Plain g) [seq tensor_step e | e <- es] = Ok p,
    forall x, p_mean p x = spec_mean g (summarise [seq tensor_step e | e <- es]) x,
    forall x y, p_cov p x y = Ok (spec_cov g (summarise [seq tensor_step e | e <- es]) x (odflt x y)) &
    forall q (xs : 'I_q -> array), possemidef (\matrix_(i, j) spec_cov g (summarise [seq tensor_step e | e <- es]) (xs i) (xs j))].
Proof.
move=> N es H I; apply: (khistory HR HS HN Hm cholP tri H); apply: (kindependent HR HS HN Hm _ H I) => s; exact: mixture_null.
Qed.
Theorem C61_mixture_dependent : forall q (ss : 'I_q -> seq (R * (mi * array))) Y b, (forall i, orders n T (ss i)) -> noise_covm b = 0 ->
  dgram (gcov g) (data_of id (tensor_obs ss Y b)) \in unitmx ->
  forall v : 'cV[R]_q, (forall f, regular n T f -> \sum_i v i 0 * tquantity (ss i) f = 0) -> v = 0.
Proof. exact: (kdependent HR HS HN Hm). Qed.
(** Variances: nonnegative, and zero only for combinations that vanish on all functions with
    the derivatives. *)
Theorem C61_mixture_variance : forall s, orders n T s -> let var := tquantity s (fun x => tquantity s (mixture ms x)) in
  0 <= var /\ (ms <> [::] -> (var = 0 <-> forall f, regular n T f -> tquantity s f = 0)).
Proof.
move=> s D var; have E : var = kcov (mixture ms) s s.
  by rewrite /var tquantity_tfun /kcov; congr tfun; apply: functional_extensionality => x; rewrite tquantity_tfun.
rewrite E; split; first exact: HN.
move=> N; have HV t : tdom n T t -> kcov (mixture ms) t t = 0 -> forall phi, local n phi -> sumR (fun p => Rmult (fst p) (phi (zof (snd p)))) t = 0 := mixture_null Hms N.
have [V1 V2] := kvariance HR HS HV D; split=> [Z f F|Z]; first by rewrite tquantity_tfun; apply: V1.
by apply: V2 => f F; rewrite -tquantity_tfun; apply: Z.
Qed.
(** Derivatives of the sum are the sums of the derivatives: the covariances of observations
    are the sums of those for the products. *)
Theorem C61_mixture_covariance : forall s t, orders n T s -> orders n T t ->
  tquantity s (fun x => tquantity t (mixture ms x)) = \sum_(p <- ms) p.1 * tquantity s (fun x => tquantity t (product p.2 x)).
Proof.
have E K s t : tquantity s (fun x => tquantity t (K x)) = kcov K s t.
  by rewrite tquantity_tfun /kcov; congr tfun; apply: functional_extensionality => x; rewrite tquantity_tfun.
by move=> s t Ds Dt; rewrite E (mixture_cov Hms Ds Dt); apply: eq_bigr => p _; rewrite E.
Qed.
(** Collocation: at each of finitely many different points some differential operator that
    is not zero is observed without noise. *)
Theorem C61_mixture_collocation : ms <> [::] -> forall q (Cs : 'I_q -> seq (mi * R)) (xs : 'I_q -> array),
  (forall i, orders_upto n T (Cs i)) -> (forall i, nonzero n (Cs i)) -> (forall i j, i != j -> ~ agree [:: n] (xs i) (xs j)) -> forall Y : 'cV[R]_q,
  exists s, [/\ from_observations g (tensor_obs (fun i => op_at (Cs i) (xs i)) Y None) = Ok s,
    forall x, c_mean s x = post_mean (gmean g) (gcov g) id (data_of id (tensor_obs (fun i => op_at (Cs i) (xs i)) Y None)) x,
    forall x y, c_cov s x (Some y) = Ok (post_cov (gcov g) id (data_of id (tensor_obs (fun i => op_at (Cs i) (xs i)) Y None)) x y) &
    forall i, apply_terms (Cs i) (c_mean s) (xs i) = Y i 0].
Proof.
move=> N q Cs xs O Nz A Y.
have HV t : tdom n T t -> kcov (mixture ms) t t = 0 -> forall phi, local n phi -> sumR (fun p => Rmult (fst p) (phi (zof (snd p)))) t = 0 := mixture_null Hms N.
have X := kcollocation HR HS HN Hm cholP tri HV O Nz A Y.
exact X.
Qed.
End Mixture.

(** ** Example *)
(** Twice one product plus half another one; the heat equation at two points and two values. *)
Definition mex_fs : seq factor := [:: FMat 3 1%Re; FGauss 5%Re].
Definition mex : seq (R * seq factor) := [:: (2%Re, tex_fs); ((1 / 2)%Re, mex_fs)].
Example C61_mixture_example : forall Y : 'cV[R]_4, exists s, from_observations (mixture_gp (fun _ => 0%R) mex) (tensor_obs (fun i => op_at (tex_Cs i) (tex_xs i)) Y None) = Ok s /\
  forall i, apply_terms (tex_Cs i) (c_mean s) (tex_xs i) = Y i 0.
Proof.
move=> Y; have [chol cholP] := C16_cholesky_contract_satisfiable [rcfType of R].
have P2 : (0 : R) < 2%Re by apply/RltP; change (Rlt 0%Re 2%Re); lra.
have Ph : (0 : R) < (1 / 2)%Re by apply/RltP; change (Rlt 0%Re (1 / 2)%Re); lra.
have F : factors_ok mex_fs tex_T.
  move=> [|[|k]] Hk; [split=> /=; [lra | rewrite /tex_T; lia] | split=> //=; lra | move: Hk => /=; lia].
have M : mixture_ok 2 tex_T mex by move=> p [<-|[<-|[]]]; [split; [exact: P2 | split=> //; exact: tex_factors] | split; [exact: Ph | split=> //]].
have [|s [E _ _ H]] := C61_mixture_collocation M (regular_const 2 tex_T 0%R) cholP true _ tex_orders tex_nonzero tex_apart Y; first by [].
by exists s.
Qed.
Print Assumptions C61_mixture_admissible. Print Assumptions C61_mixture_noisy. Print Assumptions C61_mixture_independent. Print Assumptions C61_mixture_dependent.
Print Assumptions C61_mixture_variance. Print Assumptions C61_mixture_covariance. Print Assumptions C61_mixture_collocation.
