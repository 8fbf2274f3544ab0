(** C61: conditioning on derivatives at points, for products of squared exponential and
    Matérn covariance functions. *)
From Coq Require Import Reals Lra FunctionalExtensionality.
From mathcomp Require Import all_ssreflect all_algebra.
From Verif Require Import Base NdArray FunExprModel DiffopModel DiffopSpec LfoModel LfoSpec LfoSmooth KernelModel KernelSpec TensorSchur PsdBase PsdMat PdeCondSpec SmoothSym TensorSpec TensorDeriv StatChain TensorStrict TensorObs TensorFactor TensorGram
  Block2Spec MatPD Block2Props NormalModel CondModel CondSpec CondProofs CondProps RealField TensorCond.
From Verif Require ParamSpec PdeCondProps.
Set Implicit Arguments. Unset Strict Implicit. Unset Printing Implicit Defensive.
Import Order.TTheory GRing.Theory Num.Theory.
Local Open Scope ring_scope.

(** The prior process with mean [m] and the product of the covariance functions of the
    factors. *)
Definition tensor_gp (m : array -> R) (fs : seq factor) : gp Rf array := GP (m : fn Rf array) (product fs : array -> fn Rf array).
(** An observed quantity: the sum of [c] times the derivative [a] at the point [x]. *)
Definition tquantity (s : seq (R * (mi * array))) (f : array -> R) : R := \sum_(p <- s) p.1 * pderiv p.2.1 f p.2.2.
(** The differential operator with the terms [C] at the point [x]. *)
Definition op_at (C : seq (mi * R)) (x : array) : seq (R * (mi * array)) := [seq (t.2, (t.1, x)) | t <- C].
Definition tensor_obs n (ss : 'I_n -> seq (R * (mi * array))) (Y : 'cV[R]_n) (b : option (normal Rf n)) : obs Rf array := @Obs Rf array n (fun f => \col_i tquantity (ss i) f) Y b.
(** What happens to the process. *)
Inductive tensor_event := TObs n (ss : 'I_n -> seq (R * (mi * array))) (Y : 'cV[R]_n) (b : option (normal Rf n)) | TScale (c : R).
Definition tensor_step (e : tensor_event) : event Rf array := match e with TObs n ss Y b => Cond (tensor_obs ss Y b) | TScale c => Appl (fun f x => c * f x) end.
Definition tensor_noisy (e : tensor_event) : Prop := match e with TObs n ss Y b => posdef (noise_covm b) | TScale c => True end.
Fixpoint all_of (P : tensor_event -> Prop) (es : seq tensor_event) : Prop := if es is e :: es' then P e /\ all_of P es' else True.
(** At most [T m] derivatives in the coordinate [m < n], in all terms. *)
Definition orders (n : nat) (T : nat -> nat) (s : seq (R * (mi * array))) : Prop :=
  forall p, List.In p s -> mi_shape p.2.1 = [:: n] /\ forall m, (m < n)%coq_nat -> (mi_entry p.2.1 [:: m] <= T m)%coq_nat.
Definition tensor_ok n T (e : tensor_event) : Prop := match e with TObs q ss Y b => (forall i, orders n T (ss i)) /\ possemidef (noise_covm b) | TScale c => True end.
(** No combination of everything observed vanishes on all infinitely differentiable functions
    of [n] coordinates. *)
Definition independent_tensor (n : nat) (s : summary Rf array) : Prop :=
  match s_data s with
  | Some (existT q d) => forall v, (forall f, c_infty [:: n] f -> combination (d_L d) v f = 0) -> v = 0
  | None => True
  end.
(** The coefficient of the derivative of the orders of [a] in the operator with the terms [C]. *)
Definition coefficient (n : nat) (C : seq (mi * R)) (a : mi) : R := \sum_(t <- C | all (fun m => mi_entry t.1 [:: m] == mi_entry a [:: m]) (iota 0 n)) t.2.
(** Some derivative occurs in the operator. *)
Definition nonzero (n : nat) (C : seq (mi * R)) : Prop := exists a, coefficient n C a <> 0.

Lemma tquantity_tfun s f : tquantity s f = tfun s f.
Proof. by rewrite /tfun PdeCondProps.sumR_big. Qed.

Section Tensor.
Variables (fs : seq factor) (T : nat -> nat) (m : array -> R).
Notation n := (length fs).
Hypotheses (Hf : factors_ok fs T) (Hm : regular n T m).
Variable chol : forall n : nat, 'M[R]_n -> 'M[R]_n.
Hypothesis cholP : chol_spec (F := Rf) chol.
Variable tri : bool.
Notation g := (tensor_gp m fs).
Notation Sf := (tensor_functl n T).
Notation gd := (fun i => fac_chain (tfac fs i)).
Lemma tadm : admissible (gmean g) (gcov g) Sf tensor_op.
Proof.
rewrite /= (product_prior fs T Hf); apply: tensor_admissible => //.
- exact: factors_chain.
- by move=> i /Hf [H _]; apply: fac_even.
- by move=> i /Hf [H _]; apply: fac_psd.
Qed.
Lemma tgood es : all_of (tensor_ok n T) es -> good_events Sf tensor_op [seq tensor_step e | e <- es].
Proof.
elim: es => [|ev es IH] //= [Hev /IH H]; split=> // {IH H}; case: ev Hev => [q ss Y b|c] //=; last by exists c.
by case=> [H1 H2]; split=> // i; exists (ss i); [exact: H1 | move=> f; rewrite /component mxE tquantity_tfun].
Qed.
Lemma tnoisy es : all_of tensor_noisy es -> noisy_events [seq tensor_step e | e <- es].
Proof. by elim: es => [|[q ss Y b|c] es IH] //= [Hev /IH H]. Qed.
Lemma thistory es : all_of (tensor_ok n T) es -> spec_gram_unit g (summarise [seq tensor_step e | e <- es]) ->
  exists p, [/\ run chol tri (Plain g) [seq tensor_step e | e <- es] = Ok p,
    forall x, p_mean p x = spec_mean g (summarise [seq tensor_step e | e <- es]) x,
    forall x y, p_cov p x y = Ok (spec_cov g (summarise [seq tensor_step e | e <- es]) x (odflt x y)) &
    forall q (xs : 'I_q -> array), possemidef (\matrix_(i, j) spec_cov g (summarise [seq tensor_step e | e <- es]) (xs i) (xs j))].
Proof.
move=> /tgood G U; have [p [R M C]] := C24_history cholP tri tadm G U; exists p; split=> // q xs.
apply: (C23_covariance cholP tadm G U R (xs := xs)) => i j; by rewrite C mxE.
Qed.
Lemma tterms_of q (L : functl Rf array q) v : (forall i, Sf (component L i)) -> exists2 t, tdom n T t & forall f, tfun t f = combination L v f.
Proof.
move=> /fin_all_exists2 [ss D E]; exists (tcombo (fun i => v i 0) ss (enum 'I_q)); first exact: dom_combo.
by move=> f; rewrite tfun_tcombo big_enum /=; apply: eq_bigr => i _; rewrite -E.
Qed.
Lemma section_zero t : (forall z, tfun t (product fs z) = 0) -> tcov n gd t t = 0.
Proof.
rewrite (product_prior fs T Hf) => Z; rewrite /tcov.
have -> : (fun x => tfun t (prior n gd x)) = (fun x => Rmult 0%R 0%R).
  by apply: functional_extensionality => x; rewrite Z; exact: (esym (Rmult_0_l _)).
by rewrite (tfun_cscal t 0%R (fun _ => 0%R)); exact: Rmult_0_l.
Qed.
Lemma tstrict i : (i < n)%coq_nat -> strict_on (fun v => (v.1 <= T i)%coq_nat) (lk (gd i)).
Proof. by move=> /Hf [H1 H2]; apply: fac_strict. Qed.
Lemma teven i : (i < n)%coq_nat -> even_fun (gd i 0%N). Proof. by move=> /Hf [H _]; apply: fac_even. Qed.
Lemma tpsd i : (i < n)%coq_nat -> ParamSpec.psd_kernel (fun x y : R => gd i 0%N (Rminus x y) : car RF). Proof. by move=> /Hf [H _]; apply: fac_psd. Qed.

(** The assumptions of the theorems on conditioning (C20-C24) hold. *)
Theorem C61_admissible : admissible (gmean g) (gcov g) (tensor_functl n T) tensor_op /\
  forall es, all_of (tensor_ok n T) es -> good_events (tensor_functl n T) tensor_op [seq tensor_step e | e <- es].
Proof. by split; [exact: tadm | exact: tgood]. Qed.
(** Noisy observations. *)
Theorem C61_noisy : forall es, all_of (tensor_ok n T) es -> all_of tensor_noisy es ->
  exists p, [/\ run chol tri (Plain g) [seq tensor_step e | e <- es] = Ok p,
    forall x, p_mean p x = spec_mean g (summarise [seq tensor_step e | e <- es]) x,
    forall x y, p_cov p x y = Ok (spec_cov g (summarise [seq tensor_step e | e <- es]) x (odflt x y)) &
    forall q (xs : 'I_q -> array), possemidef (\matrix_(i, j) spec_cov g (summarise [seq tensor_step e | e <- es]) (xs i) (xs j))].
Proof. by move=> es H N; apply: thistory => //; apply: (C20_noisy_data tadm); [apply: tgood | apply: tnoisy]. Qed.
(** Without noise: no combination of the observations vanishes on all infinitely
    differentiable functions. *)
Theorem C61_independent : forall es, all_of (tensor_ok n T) es -> independent_tensor n (summarise [seq tensor_step e | e <- es]) ->
  exists p, [/\ run chol tri (Plain g) [seq tensor_step e | e <- es] = Ok p,
    forall x, p_mean p x = spec_mean g (summarise [seq tensor_step e | e <- es]) x,
    forall x y, p_cov p x y = Ok (spec_cov g (summarise [seq tensor_step e | e <- es]) x (odflt x y)) &
    forall q (xs : 'I_q -> array), possemidef (\matrix_(i, j) spec_cov g (summarise [seq tensor_step e | e <- es]) (xs i) (xs j))].
Proof.
move=> es H I; apply: thistory => //; have G := tgood H; have A := tadm; have := sgood_steps A (start_good g Sf tensor_op) G.
rewrite -/(summarise _); move: I; rewrite /spec_gram_unit /independent_tensor /sgood; case: (s_data _) => [[q d]|] // I [_ [HL HN]].
apply: (gram_lemma A HL HN) => v Z; apply: I => f Cf; have [t D E] := tterms_of v HL; rewrite -E.
apply: (tcov_null n T gd (factors_chain fs T Hf) teven tpsd tstrict t D); last by move=> x y Axy; apply: (smooth_agree [:: n] f x y (proj1 Cf) Axy).
by apply: section_zero => z; rewrite E; apply: Z.
Qed.
Lemma product_sym x y : product fs x y = product fs y x.
Proof.
have E u w : product fs u w = tcov n gd (at_point n u) (at_point n w).
  by rewrite /tcov at_point_val at_point_val (product_prior fs T Hf).
by rewrite !E; apply: (tcov_sym n T gd (factors_chain fs T Hf) teven); exact: at_point_dom.
Qed.
Lemma product_regular z : regular n T (product fs z).
Proof.
have := section_regular n T gd (factors_chain fs T Hf) (at_point n z) (@at_point_dom n T z).
congr regular; apply: functional_extensionality => x; rewrite at_point_val -(product_prior fs T Hf); exact: product_sym.
Qed.
(** Conversely, observations some combination of which vanishes on all functions with the
    derivatives observed cannot be used without noise. *)
Theorem C61_dependent : forall q (ss : 'I_q -> seq (R * (mi * array))) Y b, (forall i, orders n T (ss i)) -> noise_covm b = 0 ->
  dgram (gcov g) (data_of id (tensor_obs ss Y b)) \in unitmx ->
  forall v : 'cV[R]_q, (forall f, regular n T f -> \sum_i v i 0 * tquantity (ss i) f = 0) -> v = 0.
Proof.
have A := tadm => q ss Y b D N0.
have G : good_event Sf tensor_op (Cond (tensor_obs ss Y b)).
  by apply: (proj1 (@tgood [:: TObs ss Y b] _)); split=> //; split=> //; rewrite N0; apply: possemidef0.
move=> /(C20_gram_noise_free A G N0) U v Z; apply: U => z.
rewrite /combination -[RHS](Z _ (product_regular z)); by apply: eq_bigr => i _; rewrite mxE.
Qed.
(** Variances: nonnegative, and zero only for combinations that vanish on all such
    functions. *)
Theorem C61_variance : forall s, orders n T s -> let var := tquantity s (fun x => tquantity s (product fs x)) in
  0 <= var /\ (var = 0 <-> forall f, regular n T f -> tquantity s f = 0).
Proof.
move=> s D var; have E : var = tcov n gd s s.
  rewrite /var tquantity_tfun /tcov; congr tfun; apply: functional_extensionality => x; by rewrite tquantity_tfun (product_prior fs T Hf).
rewrite E; split; first by apply/RleP; exact: (tcov_nonneg n T gd (factors_chain fs T Hf) teven tpsd s D).
split=> [Z f [_ Cf]|Z].
  by rewrite tquantity_tfun; exact: (tcov_null n T gd (factors_chain fs T Hf) teven tpsd tstrict s D Z f Cf).
by apply: (vanish_null n T gd (factors_chain fs T Hf) s D) => f Rg; rewrite -tquantity_tfun; apply: Z.
Qed.

Section Coll.
Variables (q : nat) (Cs : 'I_q -> seq (mi * R)) (xs : 'I_q -> array).
Hypotheses (O : forall i, orders_upto n T (Cs i)) (Nz : forall i, nonzero n (Cs i)) (A : forall i j, i != j -> ~ agree [:: n] (xs i) (xs j)).
Lemma op_at_orders i : orders n T (op_at (Cs i) (xs i)).
Proof. by move=> p /List.in_map_iff [[a c] [<- /O]]. Qed.
Definition hit (a : mi) (x : array) (z : nat -> nat * R) : bool := all (fun j => ((z j).1 == mi_entry a [:: j]) && ((z j).2 == x [:: j])) (iota 0 n).
Lemma hit_local a x : local n (fun z => if hit a x z then 1%R else 0%R).
Proof.
move=> z z' E; congr (if _ then _ else _); apply: eq_in_all => j; rewrite mem_iota add0n => /andP [_ /ssrnat.ltP L]; by rewrite (E j L).
Qed.
Lemma collocation_zero (v : 'cV[R]_q) : (forall z, \sum_i v i 0 * tquantity (op_at (Cs i) (xs i)) (product fs z) = 0) -> v = 0.
Proof.
move=> Z; apply/colP=> i; rewrite [RHS]mxE.
pose t := tcombo (fun j => v j 0) (fun j => op_at (Cs j) (xs j)) (enum 'I_q).
have D : tdom n T t by apply: dom_combo => j; exact: op_at_orders.
have V : tcov n gd t t = 0.
  apply: section_zero => z; rewrite tfun_tcombo big_enum /= -[RHS](Z z); by apply: eq_bigr => j _; rewrite tquantity_tfun.
have [a Ca] := Nz i.
have := tcov_null_local n T gd (factors_chain fs T Hf) teven tpsd tstrict t D V _ (hit_local a (xs i)).
rewrite PdeCondProps.sumR_big /t /tcombo big_flatten /= big_map big_enum /= (bigD1 i) //= [X in _ + X]big1 => [|j ji].
  rewrite addr0 /tscale big_map /op_at big_map /=.
  have -> : \sum_(t0 <- Cs i) Rmult (v i 0 * t0.2) (if hit a (xs i) (zof (t0.1, xs i)) then 1%R else 0%R) = v i 0 * coefficient n (Cs i) a.
    rewrite /coefficient big_distrr /= [RHS]big_mkcond /=; apply: eq_bigr => t0 _.
    have -> : hit a (xs i) (zof (t0.1, xs i)) = all (fun j => mi_entry t0.1 [:: j] == mi_entry a [:: j]) (iota 0 n).
      by apply: eq_all => j; rewrite /= eqxx andbT.
    by case: ifP => _; [exact: Rmult_1_r | exact: Rmult_0_r].
  by move=> /eqP; rewrite mulf_eq0 => /orP [/eqP|/eqP].
rewrite /tscale big_map /op_at big_map; apply: big1 => t0 _ /=.
case: ifP => [H|_]; last exact: Rmult_0_r.
case: (A ji) => k Vk; inversion Vk as [|k0 d0 k1 d1 Lk V1 E1 E2]; subst; inversion V1; subst.
move/allP: H => /(_ k0); rewrite mem_iota add0n /= => /(_ (introT ssrnat.ltP Lk)) /andP [_ /eqP]; by [].
Qed.
(** Collocation: at each of finitely many different points some differential operator that
    is not zero is observed without noise, e.g. the equation at interior points and values
    at boundary points.  The posterior mean satisfies all these equations. *)
Theorem C61_collocation : forall Y : 'cV[R]_q,
  exists s, [/\ from_observations g (tensor_obs (fun i => op_at (Cs i) (xs i)) Y None) = Ok s,
    forall x, c_mean s x = post_mean (gmean g) (gcov g) id (data_of id (tensor_obs (fun i => op_at (Cs i) (xs i)) Y None)) x,
    forall x y, c_cov s x (Some y) = Ok (post_cov (gcov g) id (data_of id (tensor_obs (fun i => op_at (Cs i) (xs i)) Y None)) x y) &
    forall i, apply_terms (Cs i) (c_mean s) (xs i) = Y i 0].
Proof.
move=> Y; have Ad := tadm; pose o := tensor_obs (fun i => op_at (Cs i) (xs i)) Y None.
have G : good_event Sf tensor_op (Cond o).
  by apply: (proj1 (@tgood [:: TObs (fun i => op_at (Cs i) (xs i)) Y None] _)); split=> //; split; [exact: op_at_orders | exact: possemidef0].
have U : dgram (gcov g) (data_of id o) \in unitmx.
  apply: (C20_gram_invertible Ad G) => v Z; apply: collocation_zero => z.
  by rewrite -[RHS](Z z); apply: eq_bigr => i _; rewrite mxE.
have [s [R M C _]] := C20_posterior cholP tri Ad G U; exists s; split=> // i.
have [/colP/(_ i)] := C20_noise_free_data cholP tri Ad G U (erefl _) R.
rewrite !mxE subr0 => <-; rewrite /tquantity /op_at big_map /apply_terms -[total _]/(sumR (fun t => let '(a, c) := t in Rmult c (pderiv a (c_mean s) (xs i))) (Cs i)) PdeCondProps.sumR_big.
by move=> _; apply: eq_bigr => -[].
Qed.
End Coll.
(** The entries of the Gram matrix are the values of [C61_gram_matrix]. *)
Theorem C61_gram_entries : forall q (Cs : 'I_q -> seq (mi * R)) (xs : 'I_q -> array) Y b i j,
  dgram (gcov g) (data_of id (tensor_obs (fun i => op_at (Cs i) (xs i)) Y b)) i j =
    apply_terms (Cs i) (fun x => apply_terms (Cs j) (product fs x) (xs j)) (xs i) + noise_covm b i j.
Proof.
move=> q Cs xs Y b i j; rewrite !mxE; congr (_ + _).
have E C f x : apply_terms C f x = tquantity (op_at C x) f.
  by rewrite /tquantity /op_at big_map /apply_terms -[total _]/(sumR (fun t => let '(a, c) := t in Rmult c (pderiv a f x)) C) PdeCondProps.sumR_big; apply: eq_bigr => -[].
by rewrite E; congr tquantity; apply: functional_extensionality => x; rewrite E !mxE.
Qed.
End Tensor.

(** ** Example *)
(** The heat equation at two points and two values, for the prior of [TensorGram] with mean
    zero. *)
Definition pt2 (t x : R) : array := fun i => if i == [:: 0%N] then t else x.
Definition tex_Cs (i : 'I_4) : seq (mi * R) := if (i < 2)%N then heat else [:: (mi0 2, 1%R)].
Definition tex_xs (i : 'I_4) : array := match val i with 0%N => pt2 1%R 0%R | 1%N => pt2 1%R 1%R | 2%N => pt2 0%R 0%R | _ => pt2 0%R 1%R end.
Lemma tex_orders i : orders_upto 2 tex_T (tex_Cs i).
Proof.
rewrite /tex_Cs; case: ifP => _; first exact: (proj2 heat_terms).
by move=> a c [[<- _]|[]]; split=> // j Hj; rewrite mi0_entry //; apply/ssrnat.leP.
Qed.
Lemma tex_nonzero i : nonzero 2 (tex_Cs i).
Proof.
rewrite /tex_Cs; case: ifP => _.
  exists (MI [:: 2%N] [:: 1%N; 0%N]); rewrite /coefficient /heat !big_cons big_nil /= addr0; exact: R1_neq_R0.
by exists (mi0 2); rewrite /coefficient big_cons big_nil /= addr0; exact: R1_neq_R0.
Qed.
Lemma tex_apart (i j : 'I_4) : i != j -> ~ agree [:: 2%N] (tex_xs i) (tex_xs j).
Proof.
move=> ij H; have := H [:: 0%N]; have := H [:: 1%N]; have v0 : valid_index [:: 2%N] [:: 0%N] by constructor; [apply/ssrnat.ltP | constructor].
have v1 : valid_index [:: 2%N] [:: 1%N] by constructor; [apply/ssrnat.ltP | constructor].
move=> /(_ v1) H1 /(_ v0) H0; move: ij H0 H1 => {H}; rewrite /tex_xs /pt2 -val_eqE.
have n1 : (1 : R) = 0 -> False := R1_neq_R0; have n2 : (0 : R) = 1 -> False by move=> /esym.
by case: i => [[|[|[|[|i]]]] //= ?]; case: j => [[|[|[|[|j]]]] //= ?] // ? H0 H1; solve [exact: (n1 H0) | exact: (n1 H1) | exact: (n2 H0) | exact: (n2 H1)].
Qed.
Example C61_example : forall Y : 'cV[R]_4, exists s, from_observations (tensor_gp (fun _ => 0%R) tex_fs) (tensor_obs (fun i => op_at (tex_Cs i) (tex_xs i)) Y None) = Ok s /\
  forall i, apply_terms (tex_Cs i) (c_mean s) (tex_xs i) = Y i 0.
Proof.
move=> Y; have [chol cholP] := C16_cholesky_contract_satisfiable [rcfType of R].
have [s [E _ _ M]] := C61_collocation tex_factors (regular_const 2 tex_T 0%R) cholP true tex_orders tex_nonzero tex_apart Y.
by exists s.
Qed.
(** The value and the heat operator at one point are independent. *)
Definition tex2 (i : 'I_2) : seq (R * (mi * array)) := op_at (if i == ord0 then [:: (mi0 2, 1%R)] else heat) (pt2 0%R 0%R).
Example C61_example_independent : forall Y : 'cV[R]_2, all_of (tensor_ok 2 tex_T) [:: TScale 2%R; TObs tex2 Y None] /\
  independent_tensor 2 (summarise [seq tensor_step e | e <- [:: TScale 2%R; TObs tex2 Y None]]).
Proof.
move=> Y; split.
  split=> //; split=> //; split; last exact: possemidef0.
  move=> i p /List.in_map_iff [[a c] [<-]]; case: ifP => _; last by move/(proj2 heat_terms).
  by move=> [[<- _]|[]]; split=> // j Hj; rewrite mi0_entry //; apply/ssrnat.leP.
move=> /= v Z.
have [u w] : v ord0 0 = 0%R /\ v (fintype.lift ord0 ord0) 0 = 0%R.
  apply: (heat_system _ _ (pt2 0%R 0%R)) => z.
  have := Z _ (ci_lexp [:: 2%N] z); rewrite /combination !big_ord_recl big_ord0 addr0 !mxE !tquantity_tfun => H; rewrite -[RHS]H {H}.
  rewrite !(tfun_cscal _ 2%R (lexp [:: 2%N] z)) -!tquantity_tfun /tex2 eqxx (_ : (fintype.lift ord0 ord0 == ord0 :> 'I_2) = false) //.
  have Ea C f x : tquantity (op_at C x) f = apply_terms C f x.
    by rewrite /tquantity /op_at big_map /apply_terms -[total _]/(sumR (fun t => let '(a, c) := t in Rmult c (pderiv a f x)) C) PdeCondProps.sumR_big; apply: eq_bigr => -[].
  by rewrite !Ea heat_lexp /apply_terms /= pderiv_mi0 /total /= Rmult_1_l Rplus_0_r.
apply/colP=> i; rewrite [RHS]mxE; have [->|->] // : i = ord0 \/ i = fintype.lift ord0 ord0 by case: i => [[|[|i]] //= ?]; [left | right]; apply: val_inj.
Qed.
Print Assumptions C61_admissible. Print Assumptions C61_noisy. Print Assumptions C61_independent. Print Assumptions C61_dependent.
Print Assumptions C61_variance. Print Assumptions C61_collocation. Print Assumptions C61_gram_entries.
