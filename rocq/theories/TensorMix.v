(** Sums of multiples of products of covariance functions: derivatives at points are
    admissible for the theorems on conditioning, and the Gram matrices are invertible if the
    observations are independent. *)
From Coq Require Import Reals Lra FunctionalExtensionality.
From mathcomp Require Import all_ssreflect all_algebra.
From Verif Require Import Base NdArray FunExprModel DiffopModel DiffopSpec LfoModel LfoSpec LfoSmooth KernelModel KernelSpec TensorSchur PsdBase PsdMat PdeCondSpec SmoothSym TensorSpec TensorDeriv StatChain TensorStrict TensorObs TensorFactor TensorGram
  Block2Spec MatPD Block2Props NormalModel CondModel CondSpec CondProofs CondProps RealField TensorCond TensorCondProps.
From Verif Require ParamSpec PdeCondProps.
Set Implicit Arguments. Unset Strict Implicit. Unset Printing Implicit Defensive.
Import Order.TTheory GRing.Theory Num.Theory.
Local Open Scope ring_scope.

(** ** Any covariance function *)
Section Kernel.
Variables (n : nat) (T : nat -> nat) (K : array -> array -> R).
Notation dom := (tdom n T).
(** The covariance of two combinations of derivatives *)
Definition kcov (s t : tterms) : R := tfun s (fun x => tfun t (K x)).
Hypothesis HR : forall s, dom s -> regular n T (fun x => tfun s (K x)).
Hypothesis HS : forall s t, dom s -> dom t -> kcov s t = kcov t s.
Hypothesis HN : forall s, dom s -> 0 <= kcov s s.
Variable m : array -> R.
Hypothesis Hm : regular n T m.
Lemma kreached_regular f : reached (F := Rf) m K (tensor_functl n T) tensor_op f -> regular n T f.
Proof.
elim=> {f} [|l [s D E]|f h _ Sf _ Sh|t f _ Sf|D f [c E] _ Sf|f h _ Sf e] //.
- have := HR D; congr regular.
  by apply: functional_extensionality => x; rewrite E.
- exact: regular_add.
- exact: regular_scal.
- have := regular_scal c Sf; congr regular; by apply: functional_extensionality => x; rewrite E.
- by rewrite (_ : h = f) //; apply: functional_extensionality => x; rewrite e.
Qed.
Lemma kernel_admissible : admissible (F := Rf) m K (tensor_functl n T) tensor_op.
Proof.
split.
- move=> l [s D E]; split=> [f h e|f h Rf Rh|t f Rf]; rewrite !E.
  + by congr tfun; apply: functional_extensionality.
  + exact: (tfun_add D (kreached_regular Rf) (kreached_regular Rh)).
  + exact: tfun_cscal.
- by move=> l l' [s D E] e; exists s => // f; rewrite -e E.
- by move=> x; exists (at_point n x); [exact: at_point_dom | move=> f; rewrite at_point_val].
- move=> l D [s Ds E] [c ED]; exists (tscale c s); first exact: dom_scale.
  by move=> f; rewrite E tfun_tscale -[RHS](tfun_cscal s c f); congr tfun; apply: functional_extensionality => x; rewrite ED.
- move=> q ls /fin_all_exists2 [ss D E].
  have E2 i j : ls i (fun x => ls j (K x)) = kcov (ss i) (ss j).
    by rewrite E; congr tfun; apply: functional_extensionality => x; rewrite E.
  split; first by apply/matrixP=> i j; rewrite !mxE !E2; apply: HS.
  move=> v; pose t := tcombo (fun i => v i 0) ss (enum 'I_q).
  have Dt : dom t by apply: dom_combo.
  have P := HN Dt; apply: le_trans P _.
  rewrite le_eqVlt; apply/orP; left; apply/eqP.
  rewrite /kcov tfun_tcombo big_enum /= /qform mxE.
  under [RHS]eq_bigr => j _ do rewrite !mxE big_distrl /=.
  rewrite exchange_big /=; apply: eq_bigr => i _.
  have -> : tfun (ss i) (fun x => tfun t (K x)) = tfun (ss i) (fun x => \sum_(j <- enum 'I_q) v j 0 * tfun (ss j) (K x)).
    by congr tfun; apply: functional_extensionality => x; rewrite tfun_tcombo.
  rewrite (@tfun_big n T) //; last by move=> j; apply: HR.
  rewrite big_enum big_distrr /=; apply: eq_bigr => j _.
  by rewrite !mxE E2 mulrA mulrAC.
Qed.
Variable chol : forall n : nat, 'M[R]_n -> 'M[R]_n.
Hypothesis cholP : chol_spec (F := Rf) chol.
Variable tri : bool.
Definition kgp : gp Rf array := GP (m : fn Rf array) (K : array -> fn Rf array).
Notation g := kgp.
Notation Sf := (tensor_functl n T).
Let adm : admissible (gmean g) (gcov g) Sf tensor_op := kernel_admissible.
Lemma kgood es : all_of (tensor_ok n T) es -> good_events Sf tensor_op [seq tensor_step e | e <- es].
Proof.
elim: es => [|ev es IH] //= [Hev /IH H]; split=> // {IH H}; case: ev Hev => [q ss Y b|c] //=; last by exists c.
by case=> [H1 H2]; split=> // i; exists (ss i); [exact: H1 | move=> f; rewrite /component mxE tquantity_tfun].
Qed.
Lemma kterms_of q (L : functl Rf array q) v : (forall i, Sf (component L i)) -> exists2 t, dom t & forall f, tfun t f = combination L v f.
Proof.
move=> /fin_all_exists2 [ss D E]; exists (tcombo (fun i => v i 0) ss (enum 'I_q)); first exact: dom_combo.
by move=> f; rewrite tfun_tcombo big_enum /=; apply: eq_bigr => i _; rewrite -E.
Qed.
Lemma khistory es : all_of (tensor_ok n T) es -> spec_gram_unit g (summarise [seq tensor_step e | e <- es]) ->
  exists p, [/\ run chol tri (Plain g) [seq tensor_step e | e <- es] = Ok p,
    forall x, p_mean p x = spec_mean g (summarise [seq tensor_step e | e <- es]) x,
    forall x y, p_cov p x y = Ok (spec_cov g (summarise [seq tensor_step e | e <- es]) x (odflt x y)) &
    forall q (xs : 'I_q -> array), possemidef (\matrix_(i, j) spec_cov g (summarise [seq tensor_step e | e <- es]) (xs i) (xs j))].
Proof.
move=> /kgood G U; have [p [R M C]] := C24_history cholP tri adm G U; exists p; split=> // q xs.
apply: (C23_covariance cholP adm G U R (xs := xs)) => i j; by rewrite C mxE.
Qed.
Lemma knoisy_history es : all_of (tensor_ok n T) es -> all_of tensor_noisy es -> spec_gram_unit g (summarise [seq tensor_step e | e <- es]).
Proof. by move=> H N; apply: (C20_noisy_data adm); [apply: kgood | apply: tnoisy]. Qed.
Lemma ksection_zero t : (forall z, tfun t (K z) = 0) -> kcov t t = 0.
Proof.
move=> Z; rewrite /kcov.
have -> : (fun x => tfun t (K x)) = (fun x => Rmult 0%R 0%R).
  by apply: functional_extensionality => x; rewrite Z; exact: (esym (Rmult_0_l _)).
by rewrite (tfun_cscal t 0%R (fun _ => 0%R)); exact: Rmult_0_l.
Qed.
(** Only combinations whose weights cancel have no variance. *)
Hypothesis HV : forall s, dom s -> kcov s s = 0 -> forall phi, local n phi -> sumR (fun p => Rmult (fst p) (phi (zof (snd p)))) s = 0.
Lemma kcov_null s : dom s -> kcov s s = 0 -> forall f, coords n f -> tfun s f = 0.
Proof.
move=> D V f C; rewrite -[RHS](HV D V (jet_local n f C)); apply: sumR_ext => -[c o] Hp; rewrite (jet_zof n f o C) //; exact: (proj1 (D _ Hp)).
Qed.
Lemma kindependent es : all_of (tensor_ok n T) es -> independent_tensor n (summarise [seq tensor_step e | e <- es]) ->
  spec_gram_unit g (summarise [seq tensor_step e | e <- es]).
Proof.
move=> H I; have G := kgood H; have A := adm; have := sgood_steps A (start_good g Sf tensor_op) G.
rewrite -/(summarise _); move: I; rewrite /spec_gram_unit /independent_tensor /sgood; case: (s_data _) => [[q d]|] // I [_ [HL HN']].
apply: (gram_lemma A HL HN') => v Z; apply: I => f Cf; have [t D E] := kterms_of v HL; rewrite -E.
apply: (kcov_null D); last by move=> x y Axy; apply: (smooth_agree [:: n] f x y (proj1 Cf) Axy).
by apply: ksection_zero => z; rewrite E; apply: Z.
Qed.
Lemma kregular z : regular n T (K z).
Proof.
have := HR (@at_point_dom n T z); congr regular; apply: functional_extensionality => x; rewrite at_point_val.
have E u w : K u w = kcov (at_point n u) (at_point n w) by rewrite /kcov !at_point_val.
by rewrite !E; apply: HS; exact: at_point_dom.
Qed.
Lemma kvariance s : dom s -> (kcov s s = 0 <-> forall f, regular n T f -> tfun s f = 0).
Proof.
move=> D; split=> [Z f [_ Cf]|Z]; first exact: kcov_null.
by apply: ksection_zero => z; apply: Z; exact: kregular.
Qed.
Lemma kdependent q (ss : 'I_q -> seq (R * (mi * array))) Y b : (forall i, orders n T (ss i)) -> noise_covm b = 0 ->
  dgram (gcov g) (data_of id (tensor_obs ss Y b)) \in unitmx ->
  forall v : 'cV[R]_q, (forall f, regular n T f -> \sum_i v i 0 * tquantity (ss i) f = 0) -> v = 0.
Proof.
move=> D N0.
have G : good_event Sf tensor_op (Cond (tensor_obs ss Y b)).
  by apply: (proj1 (@kgood [:: TObs ss Y b] _)); split=> //; split=> //; rewrite N0; apply: possemidef0.
move=> /(C20_gram_noise_free adm G N0) U v Z; apply: U => z.
rewrite /combination -[RHS](Z _ (kregular z)); by apply: eq_bigr => i _; rewrite mxE.
Qed.

Section Coll.
Variables (q : nat) (Cs : 'I_q -> seq (mi * R)) (xs : 'I_q -> array).
Hypotheses (O : forall i, orders_upto n T (Cs i)) (Nz : forall i, nonzero n (Cs i)) (A : forall i j, i != j -> ~ agree [:: n] (xs i) (xs j)).
Lemma kop_at_orders i : orders n T (op_at (Cs i) (xs i)).
Proof. by move=> p /List.in_map_iff [[a c] [<- /O]]. Qed.
Definition khit (a : mi) (x : array) (z : nat -> nat * R) : bool := all (fun j => ((z j).1 == mi_entry a [:: j]) && ((z j).2 == x [:: j])) (iota 0 n).
Lemma khit_local a x : local n (fun z => if khit a x z then 1%R else 0%R).
Proof.
move=> z z' E; congr (if _ then _ else _); apply: eq_in_all => j; rewrite mem_iota add0n => /andP [_ /ssrnat.ltP L]; by rewrite (E j L).
Qed.
Lemma kcollocation_zero (v : 'cV[R]_q) : (forall z, \sum_i v i 0 * tquantity (op_at (Cs i) (xs i)) (K z) = 0) -> v = 0.
Proof.
move=> Z; apply/colP=> i; rewrite [RHS]mxE.
pose t := tcombo (fun j => v j 0) (fun j => op_at (Cs j) (xs j)) (enum 'I_q).
have D : dom t by apply: dom_combo => j; exact: kop_at_orders.
have V : kcov t t = 0.
  apply: ksection_zero => z; rewrite tfun_tcombo big_enum /= -[RHS](Z z); by apply: eq_bigr => j _; rewrite tquantity_tfun.
have [a Ca] := Nz i.
have := HV D V (khit_local a (xs i)).
rewrite PdeCondProps.sumR_big /t /tcombo big_flatten /= big_map big_enum /= (bigD1 i) //= [X in _ + X]big1 => [|j ji].
  rewrite addr0 /tscale big_map /op_at big_map /=.
  have -> : \sum_(t0 <- Cs i) Rmult (v i 0 * t0.2) (if khit a (xs i) (zof (t0.1, xs i)) then 1%R else 0%R) = v i 0 * coefficient n (Cs i) a.
    rewrite /coefficient big_distrr /= [RHS]big_mkcond /=; apply: eq_bigr => t0 _.
    have -> : khit a (xs i) (zof (t0.1, xs i)) = all (fun j => mi_entry t0.1 [:: j] == mi_entry a [:: j]) (iota 0 n).
      by apply: eq_all => j; rewrite /= eqxx andbT.
    by case: ifP => _; [exact: Rmult_1_r | exact: Rmult_0_r].
  by move=> /eqP; rewrite mulf_eq0 => /orP [/eqP|/eqP].
rewrite /tscale big_map /op_at big_map; apply: big1 => t0 _ /=.
case: ifP => [H|_]; last exact: Rmult_0_r.
case: (A ji) => k Vk; inversion Vk as [|k0 d0 k1 d1 Lk V1 E1 E2]; subst; inversion V1; subst.
move/allP: H => /(_ k0); rewrite mem_iota add0n /= => /(_ (introT ssrnat.ltP Lk)) /andP [_ /eqP]; by [].
Qed.
Lemma kcollocation (Y : 'cV[R]_q) :
  exists s, [/\ from_observations g (tensor_obs (fun i => op_at (Cs i) (xs i)) Y None) = Ok s,
    forall x, c_mean s x = post_mean (gmean g) (gcov g) id (data_of id (tensor_obs (fun i => op_at (Cs i) (xs i)) Y None)) x,
    forall x y, c_cov s x (Some y) = Ok (post_cov (gcov g) id (data_of id (tensor_obs (fun i => op_at (Cs i) (xs i)) Y None)) x y) &
    forall i, apply_terms (Cs i) (c_mean s) (xs i) = Y i 0].
Proof.
pose o := tensor_obs (fun i => op_at (Cs i) (xs i)) Y None.
have G : good_event Sf tensor_op (Cond o).
  by apply: (proj1 (@kgood [:: TObs (fun i => op_at (Cs i) (xs i)) Y None] _)); split=> //; split; [exact: kop_at_orders | exact: possemidef0].
have U : dgram (gcov g) (data_of id o) \in unitmx.
  apply: (C20_gram_invertible adm G) => v Z; apply: kcollocation_zero => z.
  by rewrite -[RHS](Z z); apply: eq_bigr => i _; rewrite mxE.
have [s [R M C _]] := C20_posterior cholP tri adm G U; exists s; split=> // i.
have [/colP/(_ i)] := C20_noise_free_data cholP tri adm G U (erefl _) R.
rewrite !mxE subr0 => <-; rewrite /tquantity /op_at big_map /apply_terms -[total _]/(sumR (fun t => let '(a, c) := t in Rmult c (pderiv a (c_mean s) (xs i))) (Cs i)) PdeCondProps.sumR_big.
by move=> _; apply: eq_bigr => -[].
Qed.
End Coll.
End Kernel.

(** ** Sums of multiples *)
(** The covariance function [s_1 * TensorProduct(...) + s_2 * TensorProduct(...) + ...] *)
Definition mixture (ms : seq (R * seq factor)) (x y : array) : R := \sum_(p <- ms) p.1 * product p.2 x y.
(** Every summand: a positive factor and a product for [n] coordinates with [T] derivatives. *)
Definition mixture_ok (n : nat) (T : nat -> nat) (ms : seq (R * seq factor)) : Prop :=
  forall p, List.In p ms -> 0 < p.1 /\ length p.2 = n /\ factors_ok p.2 T.
Section Mix.
Variables (n : nat) (T : nat -> nat).
Lemma mixture_cons p ms : mixture_ok n T (p :: ms) -> [/\ 0 < p.1, length p.2 = n, factors_ok p.2 T & mixture_ok n T ms].
Proof. by move=> H; have [H1 [H2 H3]] := H p (or_introl erefl); split=> // r Hr; apply: H; right. Qed.
Lemma regular_sum (I : Type) (h : I -> array -> R) r : (forall i, List.In i r -> regular n T (h i)) -> regular n T (fun x => \sum_(i <- r) h i x).
Proof.
elim: r => [|i r IH] H.
  have := regular_const n T 0%R; congr regular; by apply: functional_extensionality => x; rewrite big_nil.
have := regular_add (H i (or_introl erefl)) (IH (fun j Hj => H j (or_intror Hj))); congr regular; by apply: functional_extensionality => x; rewrite big_cons.
Qed.
Lemma tfun_sum s (I : Type) (h : I -> array -> R) r : tdom n T s -> (forall i, List.In i r -> regular n T (h i)) ->
  tfun s (fun x => \sum_(i <- r) h i x) = \sum_(i <- r) tfun s (h i).
Proof.
move=> D; elim: r => [|i r IH] H.
  rewrite big_nil -[RHS](mul0r (tfun s (fun _ => 0%R))) -[RHS](tfun_cscal s 0%R (fun _ => 0%R)).
  by congr tfun; apply: functional_extensionality => x; rewrite big_nil; exact: (esym (Rmult_0_l _)).
rewrite big_cons -IH; last by move=> j Hj; apply: H; right.
rewrite -[RHS](tfun_add D (H i (or_introl erefl)) (@regular_sum I h r (fun j Hj => H j (or_intror Hj)))).
by congr tfun; apply: functional_extensionality => x; rewrite big_cons.
Qed.
Lemma product_section fs s : length fs = n -> factors_ok fs T -> tdom n T s -> regular n T (fun x => tfun s (product fs x)).
Proof. by move=> <- H D; rewrite (product_prior fs T H); apply: section_regular => //; apply: factors_chain. Qed.
Lemma mixture_tfun ms s x : mixture_ok n T ms -> tdom n T s -> tfun s (mixture ms x) = \sum_(p <- ms) p.1 * tfun s (product p.2 x).
Proof.
move=> M D; rewrite /mixture (@tfun_sum s _ (fun p y => p.1 * product p.2 x y)) //; first by apply: eq_bigr => p _; exact: tfun_cscal.
by move=> p /M [_ [<- H]]; apply: regular_scal; apply: product_regular.
Qed.
Lemma mixture_section ms s : mixture_ok n T ms -> tdom n T s -> regular n T (fun x => tfun s (mixture ms x)).
Proof.
move=> M D; have := @regular_sum _ (fun p x => p.1 * tfun s (product p.2 x)) ms.
rewrite (_ : (fun x => tfun s (mixture ms x)) = (fun x => \sum_(p <- ms) p.1 * tfun s (product p.2 x))); last by apply: functional_extensionality => x; apply: mixture_tfun.
by apply=> p /M [_ [L H]]; apply: regular_scal; apply: product_section.
Qed.
Lemma mixture_cov ms s t : mixture_ok n T ms -> tdom n T s -> tdom n T t ->
  kcov (mixture ms) s t = \sum_(p <- ms) p.1 * kcov (product p.2) s t.
Proof.
move=> M Ds Dt; rewrite /kcov.
rewrite (_ : (fun x => tfun t (mixture ms x)) = (fun x => \sum_(p <- ms) p.1 * tfun t (product p.2 x))); last by apply: functional_extensionality => x; apply: mixture_tfun.
rewrite (@tfun_sum s _ (fun p x => p.1 * tfun t (product p.2 x))) //; first by apply: eq_bigr => p _; exact: tfun_cscal.
by move=> p /M [_ [L H]]; apply: regular_scal; apply: product_section.
Qed.
Lemma product_kcov fs s t : length fs = n -> factors_ok fs T -> kcov (product fs) s t = tcov n (fun i => fac_chain (tfac fs i)) s t.
Proof. by move=> <- H; rewrite /kcov (product_prior fs T H). Qed.
Lemma product_kcov_sym fs s t : length fs = n -> factors_ok fs T -> tdom n T s -> tdom n T t -> kcov (product fs) s t = kcov (product fs) t s.
Proof.
move=> L H Ds Dt; rewrite !product_kcov //; apply: (tcov_sym n T) => //; move: H; rewrite -L => H; [exact: (factors_chain _ _ H) | exact: (teven H)].
Qed.
Lemma product_kcov_nonneg fs s : length fs = n -> factors_ok fs T -> tdom n T s -> 0 <= kcov (product fs) s s.
Proof.
move=> L H Ds; rewrite product_kcov //; apply/RleP; apply: (tcov_nonneg n T) => //; move: H; rewrite -L => H; [exact: (factors_chain _ _ H) | exact: (teven H) | exact: (tpsd H)].
Qed.
Lemma mixture_sym ms s t : mixture_ok n T ms -> tdom n T s -> tdom n T t -> kcov (mixture ms) s t = kcov (mixture ms) t s.
Proof.
move=> M Ds Dt; rewrite !mixture_cov //; elim: ms M => [|p ms IH] M; first by rewrite !big_nil.
by have [H1 H2 H3 M'] := mixture_cons M; rewrite !big_cons IH // (product_kcov_sym H2 H3 Ds Dt).
Qed.
Lemma mixture_nonneg_null ms s : mixture_ok n T ms -> tdom n T s -> 0 <= kcov (mixture ms) s s /\
  (kcov (mixture ms) s s = 0 -> forall p, List.In p ms -> kcov (product p.2) s s = 0).
Proof.
move=> M Ds; rewrite mixture_cov //; elim: ms M => [|p ms IH] M; first by rewrite big_nil; split=> // _ p [].
have [H1 H2 H3 M'] := mixture_cons M; have [I1 I2] := IH M'; have P := product_kcov_nonneg H2 H3 Ds; rewrite big_cons.
have Q : 0 <= p.1 * kcov (product p.2) s s by apply: mulr_ge0 => //; apply: ltW.
split; first exact: addr_ge0.
move=> /eqP; rewrite paddr_eq0 // => /andP [/eqP Z1 /eqP Z2] r [<-|]; last exact: I2.
by move/eqP: Z1; rewrite mulf_eq0 gt_eqF //= => /eqP.
Qed.
Lemma mixture_null ms s : mixture_ok n T ms -> ms <> [::] -> tdom n T s -> kcov (mixture ms) s s = 0 ->
  forall phi, local n phi -> sumR (fun p => Rmult (fst p) (phi (zof (snd p)))) s = 0.
Proof.
case: ms => [|p ms] // M _ Ds Z phi Hphi; have [H1 H2 H3 M'] := mixture_cons M.
have := proj2 (mixture_nonneg_null M Ds) Z p (or_introl erefl); rewrite product_kcov // => Z1.
apply: (tcov_null_local n T _ _ _ _ _ s Ds Z1 phi Hphi); move: H3; rewrite -H2 => H3; [exact: (factors_chain _ _ H3) | exact: (teven H3) | exact: (tpsd H3) | exact: (tstrict H3)].
Qed.
End Mix.
