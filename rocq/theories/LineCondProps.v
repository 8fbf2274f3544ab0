(** C60: conditioning on values and integrals, for squared exponential and Matérn priors. *)
From Coq Require Import Reals Lra FunctionalExtensionality.
From mathcomp Require Import all_ssreflect all_algebra.
From Verif Require Import Base NdArray FunExprModel DiffopModel DiffopSpec KernelModel KernelSpec TensorSchur PsdBase PsdIntegral IntegralModel IntegralSpec IntegralProps ObsPsdProps LineObs LineStrict MaternStrict PointStrict PdeCondSpec
  Block2Spec MatPD Block2Props NormalModel CondModel CondSpec CondProofs CondPoint CondProps RealField LineCond LineCondEx.
From Verif Require ParamSpec PdeCondProps.
Set Implicit Arguments. Unset Strict Implicit. Unset Printing Implicit Defensive.
Import Order.TTheory GRing.Theory Num.Theory.
Local Open Scope ring_scope.
Notation Rf := [realFieldType of R].
Notation RInt := (@Coquelicot.RInt.RInt Coquelicot.Hierarchy.R_CompleteNormedModule).

(** * Values and integrals on the real line *)
(** The prior process on the line with mean [m] and covariance function [k]; points of
    shape () are real numbers. *)
Definition line_gp (m : R -> R) (k : cov) : gp Rf R := GP (m : fn Rf R) ((fun x y => ceval k (IntegralModel.pt x) (IntegralModel.pt y)) : R -> fn Rf R).
(** A value or a weighted integral. *)
Definition quantity (o : wobs) (f : R -> R) : R :=
  match o with PsdIntegral.At x => f x | PsdIntegral.Int g a b => RInt (fun t => Rmult (g t) (f t)) a b end.
Definition line_obs n (os : 'I_n -> wobs) (Y : 'cV[R]_n) (b : option (normal Rf n)) : obs Rf R := @Obs Rf R n (fun f => \col_i quantity (os i) f) Y b.
(** What happens to the process: conditioning on such observations and multiplying by
    numbers. *)
Inductive line_event := LObs n (os : 'I_n -> wobs) (Y : 'cV[R]_n) (b : option (normal Rf n)) | LScale (c : R).
Definition line_step (e : line_event) : event Rf R := match e with LObs n os Y b => Cond (line_obs os Y b) | LScale c => Appl (fun f x => c * f x) end.
Definition line_ok (W : wobs -> Prop) (e : line_event) : Prop := match e with LObs n os Y b => (forall i, W (os i)) /\ possemidef (noise_covm b) | LScale c => True end.
Definition line_noisy (e : line_event) : Prop := match e with LObs n os Y b => posdef (noise_covm b) | LScale c => True end.
Fixpoint every (P : line_event -> Prop) (es : seq line_event) : Prop := if es is e :: es' then P e /\ every P es' else True.
(** Values and integrals without weight, or with a constant one. *)
Definition unweighted (o : wobs) : Prop :=
  match o with PsdIntegral.At _ => True | PsdIntegral.Int g a b => Rle a b /\ exists c, forall t, g t = c end.
(** No combination of everything observed vanishes on all infinitely differentiable functions. *)
Definition independent_line (s : summary Rf R) : Prop :=
  match s_data s with
  | Some (existT n d) => forall v, (forall f, smooth_line f -> combination (d_L d) v f = 0) -> v = 0
  | None => True
  end.

Lemma unweighted_ok o : unweighted o -> obs_ok o.
Proof.
case: o => [x|g a b] // [H [c E]]; split=> // x; have -> : g = (fun _ => c) by apply: functional_extensionality.
exact: cont_const.
Qed.
Lemma unweighted_scl c (p : R * wobs) : unweighted p.2 -> unweighted (oscl c p).2.
Proof. by case: p => [r [x|g a b]] //= [H [d E]]; split=> //; exists (Rmult c d) => t; rewrite E. Qed.
Lemma ok_scl c (p : R * wobs) : obs_ok p.2 -> obs_ok (oscl c p).2.
Proof. by case: p => [r [x|g a b]] //= [H E]; split=> //; apply: cont_scal. Qed.
(** Combinations of unweighted observations, on continuous functions. *)
Lemma unweighted_terms s : wdom unweighted s -> exists2 iv : ivals, idom iv & forall f, cont f -> ofun s f = ofun (terms_of iv) f.
Proof.
elim: s => [|[r o] s IH] D; first by exists [::].
have [|iv Di E] := IH; first by move=> p Hp; apply: D; right.
case: o D => [x|g a b] D.
  exists ((r, Value x) :: iv) => [p [<-|/Di]|f Cf] //.
  by rewrite /= !ofun_cons E.
have [/= Hab [c Ec]] := D _ (or_introl erefl).
exists ((r * c, Integral a b) :: iv) => [p [<-|/Di]|f Cf] //.
rewrite /= !ofun_cons E //; congr (_ + _); rewrite -mulrA; congr (_ * _).
have -> : g = (fun _ => c) by apply: functional_extensionality.
rewrite -[RHS](val_scal (PsdIntegral.Int (fun _ => 1%R) a b) c f _ Cf); last by split=> // x; apply: cont_const.
rewrite /= (_ : (fun t => Rmult 1 (Rmult c (f t))) = (fun t => Rmult c (f t))) //.
by apply: functional_extensionality => t; rewrite Rmult_1_l.
Qed.

Section Line.
Variables (k : cov) (m : R -> R).
Hypotheses (Hk : line_prior k) (Cm : cont m).
Variable chol : forall n : nat, 'M[R]_n -> 'M[R]_n.
Hypothesis cholP : chol_spec (F := Rf) chol.
Variable tri : bool.
Notation g := (line_gp m k).

Section Kind.
Variable W : wobs -> Prop.
Hypotheses (HW : forall o, W o -> obs_ok o) (WAt : forall x, W (PsdIntegral.At x)) (WS : forall c p, W p.2 -> W (oscl c p).2).
Notation Sf := (line_functl W).
Lemma adm : admissible (gmean g) (gcov g) Sf line_op.
Proof. apply: line_admissible => //; [exact: (prior_cont k Hk) | exact: (prior_line_psd k Hk) | exact: (prior_sym k Hk)]. Qed.
Lemma line_good es : every (line_ok W) es -> good_events Sf line_op [seq line_step e | e <- es].
Proof.
elim: es => [|ev es IH] //= [Hev /IH H]; split=> // {IH H}; case: ev Hev => [n os Y b|c] //=; last by exists c.
case=> [H1 H2]; split=> // i; exists [:: (1%R, os i)]; split=> [p [<-|[]]|f]; first exact: H1.
by rewrite /component mxE ofun_cons mul1r addr0.
Qed.
Lemma line_noisy_events es : every line_noisy es -> noisy_events [seq line_step e | e <- es].
Proof. by elim: es => [|[n os Y b|c] es IH] //= [Hev /IH H]. Qed.
Lemma history es : every (line_ok W) es -> spec_gram_unit g (summarise [seq line_step e | e <- es]) ->
  exists p, [/\ run chol tri (Plain g) [seq line_step e | e <- es] = Ok p,
    forall x, p_mean p x = spec_mean g (summarise [seq line_step e | e <- es]) x,
    forall x y, p_cov p x y = Ok (spec_cov g (summarise [seq line_step e | e <- es]) x (odflt x y)) &
    forall q (xs : 'I_q -> R), possemidef (\matrix_(i, j) spec_cov g (summarise [seq line_step e | e <- es]) (xs i) (xs j))].
Proof.
move=> /line_good G U; have [p [R M C]] := C24_history cholP tri adm G U; exists p; split=> // q xs.
apply: (C23_covariance cholP adm G U R (xs := xs)) => i j; by rewrite C mxE.
Qed.
Lemma line_terms n (L : functl Rf R n) v : (forall i, Sf (component L i)) -> exists2 t, wdom W t & forall f, ofun t f = combination L v f.
Proof.
move=> /fin_all_exists [ss Hs]; exists (ocombo (fun i => v i 0) ss (enum 'I_n)).
  by apply: wdom_combo => i; case: (Hs i).
by move=> f; rewrite ofun_ocombo big_enum /=; apply: eq_bigr => i _; case: (Hs i) => _ <-.
Qed.
End Kind.

(** The assumptions of the theorems on conditioning (C20-C24) hold for values and weighted
    integrals. *)
Theorem C60_admissible : admissible (gmean g) (gcov g) (line_functl obs_ok) line_op /\
  forall es, every (line_ok obs_ok) es -> good_events (line_functl obs_ok) line_op [seq line_step e | e <- es].
Proof. split; first by apply: adm => //; exact: ok_scl. exact: line_good. Qed.
(** Noisy values and weighted integrals: conditioning always succeeds and gives the
    posterior, whose covariance matrices are positive semidefinite. *)
Theorem C60_noisy : forall es, every (line_ok obs_ok) es -> every line_noisy es ->
  exists p, [/\ run chol tri (Plain g) [seq line_step e | e <- es] = Ok p,
    forall x, p_mean p x = spec_mean g (summarise [seq line_step e | e <- es]) x,
    forall x y, p_cov p x y = Ok (spec_cov g (summarise [seq line_step e | e <- es]) x (odflt x y)) &
    forall q (xs : 'I_q -> R), possemidef (\matrix_(i, j) spec_cov g (summarise [seq line_step e | e <- es]) (xs i) (xs j))].
Proof.
have A : admissible (gmean g) (gcov g) (line_functl obs_ok) line_op by apply: adm => //; exact: ok_scl.
move=> es H N; apply: (history (W := obs_ok)) => //; first exact: ok_scl.
by apply: (C20_noisy_data A); [apply: line_good | apply: line_noisy_events].
Qed.

Hypothesis Hs : line_strict k.
Notation Sp := (line_functl unweighted).
Lemma adm_unweighted : admissible (gmean g) (gcov g) Sp line_op.
Proof. apply: adm; [exact: unweighted_ok | by [] | exact: unweighted_scl]. Qed.
Lemma section_unseen n (L : functl Rf R n) v : (forall i, Sp (component L i)) -> (forall z, combination L v (gcov g z) = 0) ->
  exists2 iv : ivals, idom iv & unseen iv /\ forall f, cont f -> combination L v f = ofun (terms_of iv) f.
Proof.
move=> HL Z; have [t T E] := line_terms v HL; have [iv D Ei] := unweighted_terms T.
have Ck := prior_cont k Hk.
have Cs z : cont (line k z) := cont2_right (line k) z Ck.
exists iv => //; split; last by move=> f Cf; rewrite -E Ei.
apply: (prior_unseen k iv Hs D).
have -> : (fun x => ofun (terms_of iv) (line k x)) = (fun x => Rmult 0%R 0%R).
  by apply: functional_extensionality => x; rewrite -Ei // E Z; exact: (esym (Rmult_0_l _)).
by rewrite (ofun_scal _ 0%R (fun _ => 0%R) (terms_of_dom iv D) (cont_const 0%R)); exact: Rmult_0_l.
Qed.
Lemma independent_unit es : every (line_ok unweighted) es -> independent_line (summarise [seq line_step e | e <- es]) ->
  spec_gram_unit g (summarise [seq line_step e | e <- es]).
Proof.
move=> /line_good G; have A := adm_unweighted; have S := sgood_steps A (start_good g Sp line_op) G.
rewrite -/(summarise _) in S; move: S; rewrite /spec_gram_unit /independent_line /sgood; case: (s_data _) => [[n d]|] // [_ [HL HN]] I.
apply: (gram_lemma A HL HN) => v Z; apply: I => f Sf.
have [iv D [U E]] := section_unseen HL Z; rewrite E; first exact: (unseen_line iv f U D Sf).
exact: smooth_cont.
Qed.
(** With a squared exponential or Matérn summand in the covariance function it is enough
    that no combination of the observed values and integrals vanishes on all infinitely
    differentiable functions; noise is not needed. *)
Theorem C60_independent : forall es, every (line_ok unweighted) es -> independent_line (summarise [seq line_step e | e <- es]) ->
  exists p, [/\ run chol tri (Plain g) [seq line_step e | e <- es] = Ok p,
    forall x, p_mean p x = spec_mean g (summarise [seq line_step e | e <- es]) x,
    forall x y, p_cov p x y = Ok (spec_cov g (summarise [seq line_step e | e <- es]) x (odflt x y)) &
    forall q (xs : 'I_q -> R), possemidef (\matrix_(i, j) spec_cov g (summarise [seq line_step e | e <- es]) (xs i) (xs j))].
Proof.
by move=> es H I; apply: (history (W := unweighted)) => //; [exact: unweighted_ok | exact: unweighted_scl | apply: independent_unit].
Qed.
(** Conversely, observations some combination of which vanishes on all continuous
    functions cannot be used without noise. *)
Theorem C60_dependent : forall n (os : 'I_n -> wobs) Y b, (forall i, obs_ok (os i)) -> noise_covm b = 0 ->
  dgram (gcov g) (data_of id (line_obs os Y b)) \in unitmx ->
  forall v : 'cV[R]_n, (forall f, cont f -> \sum_i v i 0 * quantity (os i) f = 0) -> v = 0.
Proof.
have A : admissible (gmean g) (gcov g) (line_functl obs_ok) line_op by apply: adm => //; exact: ok_scl.
move=> n os Y b D N0.
have G : good_event (line_functl obs_ok) line_op (Cond (line_obs os Y b)).
  by apply: (proj1 (@line_good obs_ok [:: LObs os Y b] _)); split=> //; split=> //; rewrite N0; apply: possemidef0.
move=> /(C20_gram_noise_free A G N0) U v Z; apply: U => z.
rewrite /combination -[RHS](Z _ (cont2_right (line k) z (prior_cont k Hk))); by apply: eq_bigr => i _; rewrite mxE.
Qed.

(** Values at different points, and integrals over intervals that overlap in at most an
    endpoint. *)
Definition separate (o o' : iobs) : Prop :=
  match o, o' with
  | Value x, Value y => x <> y
  | Integral a b, Integral c d => Rle b c \/ Rle d a
  | _, _ => True
  end.
Definition proper (o : iobs) : Prop := match o with Value _ => True | Integral a b => Rlt a b end.
Definition iquantity (o : iobs) (f : R -> R) : R := match o with Value x => f x | Integral a b => RInt f a b end.
Definition quad_obs n (os : 'I_n -> iobs) (Y : 'cV[R]_n) (b : option (normal Rf n)) : obs Rf R := @Obs Rf R n (fun f => \col_i iquantity (os i) f) Y b.
Lemma iquantity_obs o f : iquantity o f = obs_val (to_obs o) f.
Proof. by case: o => [x|a b] //=; rewrite one_int. Qed.
Lemma quad_line n (os : 'I_n -> iobs) Y b : quad_obs os Y b = line_obs (fun i => to_obs (os i)) Y b.
Proof.
congr (@Obs Rf R n _ Y b); apply: functional_extensionality => f; apply/colP=> i; by rewrite !mxE iquantity_obs.
Qed.
Lemma proper_ok o : proper o -> iobs_ok o. Proof. by case: o => [x|a b] //= H; left. Qed.
Lemma separate_independent n (os : 'I_n -> iobs) : (forall i, proper (os i)) -> (forall i j, i != j -> separate (os i) (os j)) ->
  forall v : 'cV[R]_n, (forall z, \sum_i v i 0 * iquantity (os i) (line k z) = 0) -> v = 0.
Proof.
move=> P A v Z; apply/colP=> i; rewrite mxE.
pose s : ivals := [seq (v j 0, os j) | j <- enum 'I_n].
have D : idom s by move=> p /List.in_map_iff [j [<- _]] /=; apply: proper_ok.
have E (h : R * iobs -> R) : sumR h s = \sum_j h (v j 0, os j).
  by rewrite PdeCondProps.sumR_big /s big_map big_enum.
have U : unseen s.
  apply: (prior_unseen k s Hs D).
  have -> : (fun x => ofun (terms_of s) (line k x)) = (fun x => Rmult 0%R 0%R).
    apply: functional_extensionality => x.
    have -> : ofun (terms_of s) (line k x) = \sum_j v j 0 * iquantity (os j) (line k x).
      by rewrite /ofun /terms_of sumR_map E; apply: eq_bigr => j _; rewrite /= iquantity_obs.
    by rewrite Z; exact: (esym (Rmult_0_l _)).
  by rewrite (ofun_scal _ 0%R (fun _ => 0%R) (terms_of_dom s D) (cont_const 0%R)); exact: Rmult_0_l.
case Ei : (os i) => [x|a b].
- pose phi y : R := if Req_EM_T y x then 1%R else 0%R.
  have px : phi x = 1%R by rewrite /phi; case: Req_EM_T.
  have p0 y : phi y = 0%R \/ y = x by rewrite /phi; case: Req_EM_T => e; [right | left].
  have := unseen_values s phi x U p0 px; rewrite E (bigD1 i) //= Ei big1 => [|j ji]; last first.
    case Ej : (os j) => [y|c d]; last exact: Rmult_0_r.
    rewrite /phi; case: Req_EM_T => [e|ne]; last exact: Rmult_0_r.
    by exfalso; have := A i j; rewrite eq_sym ji Ei Ej => /(_ isT) /=; apply; exact: esym.
  by rewrite px => H; rewrite -[LHS]Rmult_1_r -[LHS]Rplus_0_r.
- pose phi y : R := if Rlt_dec a y then 1%R else 0%R.
  have := unseen_cells s phi U; rewrite E (bigD1 i) //= Ei big1 => [|j ji]; last first.
    case Ej : (os j) => [y|c d]; first exact: Rmult_0_r.
    have := A i j; rewrite eq_sym ji Ei Ej => /(_ isT) /= H.
    have := P j; rewrite Ej /= => Hcd; have := P i; rewrite Ei /= => Hab.
    rewrite /phi; case: (Rlt_dec a d) => h1; case: (Rlt_dec a c) => h2; rewrite ?Rminus_eq_0 ?Rmult_0_r //; exfalso; case: H => H; lra.
  rewrite /phi; case: (Rlt_dec a b) => h1; last by have := P i; rewrite Ei /= => Hab; case: h1.
  case: (Rlt_dec a a) => h2; first by exfalso; lra.
  by rewrite Rminus_0_r addr0 => H; rewrite -[LHS](Rmult_1_r _).
Qed.
(** Bayesian quadrature: conditioning on values at different points and integrals over the
    cells of a grid, without noise.  The posterior mean has exactly the observed values and
    integrals. *)
Theorem C60_quadrature : forall n (os : 'I_n -> iobs) (Y : 'cV[R]_n), (forall i, proper (os i)) -> (forall i j, i != j -> separate (os i) (os j)) ->
  exists s, [/\ from_observations g (quad_obs os Y None) = Ok s,
    forall x, c_mean s x = post_mean (gmean g) (gcov g) id (data_of id (quad_obs os Y None)) x,
    forall x y, c_cov s x (Some y) = Ok (post_cov (gcov g) id (data_of id (quad_obs os Y None)) x y) &
    forall i, iquantity (os i) (c_mean s) = Y i 0].
Proof.
move=> n os Y P A; have Ad := adm_unweighted; have G : good_event Sp line_op (Cond (quad_obs os Y None)).
  rewrite quad_line; apply: (proj1 (@line_good unweighted [:: LObs (fun i => to_obs (os i)) Y None] _)); split=> //; split; last exact: possemidef0.
  move=> i; move: (P i); case: (os i) => [x|a b] //= H; split; first exact: Rlt_le.
  by exists 1%R.
have U : dgram (gcov g) (data_of id (quad_obs os Y None)) \in unitmx.
  apply: (C20_gram_invertible Ad G) => v Z; apply: (separate_independent P A) => z.
  by rewrite -[RHS](Z z); apply: eq_bigr => i _; rewrite mxE.
have [s [R M C _]] := C20_posterior cholP tri Ad G U; exists s; split=> // i.
have [/colP/(_ i)] := C20_noise_free_data cholP tri Ad G U (erefl _) R.
by rewrite !mxE subr0.
Qed.
(** The Gram matrix is computed by the library's covariances of integrals (C40, C56). *)
Theorem C60_gram_entries : forall n (os : 'I_n -> iobs) Y b i j c, (forall i, iobs_ok (os i)) -> icov k (os i) (os j) = Ok c ->
  dgram (gcov g) (data_of id (quad_obs os Y b)) i j = c + noise_covm b i j.
Proof.
move=> n os Y b i j c D; rewrite icov_value // => -[<-]; rewrite !mxE; congr (_ + _).
rewrite iquantity_obs /obs_cov; congr obs_val; apply: functional_extensionality => x.
by rewrite mxE iquantity_obs.
Qed.
End Line.

(** * Values at points of any shape *)
Lemma list_psd (k : array -> array -> R) : ParamSpec.psd_kernel (k : array -> array -> car RF) -> (forall x y, k x y = k y x) ->
  CondPoint.psd_kernel (F := Rf) (k : array -> fn Rf array).
Proof.
move=> P S n xs; split; first by apply/matrixP=> i j; rewrite !mxE S.
move=> v; have /RleP Q := P [seq (v i 0, xs i) | i <- enum 'I_n]; apply: le_trans Q _.
rewrite le_eqVlt; apply/orP; left; apply/eqP.
rewrite -[LHS]/(form k [seq (v i 0, xs i) | i <- enum 'I_n]) /form PdeCondProps.sumR_big big_map big_enum /= /qform mxE.
under [RHS]eq_bigr => j _ do rewrite !mxE big_distrl /=.
rewrite exchange_big /=; apply: eq_bigr => i _.
rewrite PdeCondProps.sumR_big big_map big_enum /=; apply: eq_bigr => j _.
by rewrite !mxE mulrAC.
Qed.
Section Points.
Variables (sh : shape) (k : cov) (m : array -> R).
Hypothesis Hk : point_strict sh k.
Variable chol : forall n : nat, 'M[R]_n -> 'M[R]_n.
Hypothesis cholP : chol_spec (F := Rf) chol.
Variable tri : bool.
Notation g := (PdeCondProps.pde_prior m k).
(** Interpolation: values at points no two of which have the same coordinates, without
    noise, for sums of squared exponential and Matérn kernels in any number of dimensions
    and any mean function. *)
Theorem C60_points : forall n (xs : 'I_n -> array) (Y : 'cV[R]_n), (forall i j, i != j -> ~ agree sh (xs i) (xs j)) ->
  let K := kmat (F := Rf) (ceval k) xs xs in
  exists s, [/\ from_observations g (point_obs xs Y None) = Ok s, K \in unitmx,
    forall x, c_mean s x = m x + (kmat (F := Rf) (ceval k) (fun _ : 'I_1 => x) xs *m invmx K *m (Y - \col_i m (xs i))) 0 0,
    forall x y, c_cov s x (Some y) = Ok (ceval k x y - (kmat (F := Rf) (ceval k) (fun _ : 'I_1 => x) xs *m invmx K *m kmat (F := Rf) (ceval k) xs (fun _ : 'I_1 => y)) 0 0) &
    forall i, c_mean s (xs i) = Y i 0].
Proof.
move=> n xs Y A K; have Hp := point_strict_prior sh k Hk.
have Ad : admissible (gmean g) (gcov g) (@point_functl Rf array) (@stencil_op Rf array).
  apply: point_admissible; apply: list_psd; [exact: (point_psd sh k Hp) | exact: (point_sym sh k Hp)].
have G : good_event (@point_functl Rf array) (@stencil_op Rf array) (Cond (point_obs xs Y None)).
  split=> [i|]; last exact: possemidef0.
  by exists [:: (1, xs i)] => f; rewrite /component mxE /combo big_cons big_nil /= mul1r addr0.
have U : dgram (gcov g) (data_of id (point_obs xs Y None)) \in unitmx.
  apply: (C20_gram_invertible Ad G) => v Z; apply/colP=> i; rewrite [RHS]mxE.
  pose l : seq (R * array) := [seq (v j 0, xs j) | j <- enum 'I_n].
  have E (h : R * array -> R) : sumR h l = \sum_j h (v j 0, xs j) by rewrite PdeCondProps.sumR_big /l big_map big_enum.
  have N : nowhere sh l.
    apply: (point_nowhere sh k l Hk); rewrite /form E big1 // => j _; rewrite E.
    transitivity (v j 0 * combination (o_L (point_obs xs Y None)) v (gcov g (xs j))); last by rewrite Z mulr0.
    by rewrite /combination big_distrr; apply: eq_bigr => i' _; rewrite mxE /= mulrA.
  have := N (fun y => if PdeCondProps.agreeb sh (xs i) y then 1%R else 0%R); rewrite E (bigD1 i) //= big1 => [|j ji]; last first.
    by case: PdeCondProps.agreebP => [/A H|_]; [case: H; rewrite eq_sym | exact: Rmult_0_l].
  case: PdeCondProps.agreebP => [_|]; last by case.
  rewrite Rmult_1_l addr0; apply=> x y Axy; congr (if _ then _ else _); apply/PdeCondProps.agreebP/PdeCondProps.agreebP => H j Vj.
    by rewrite (H j Vj) (Axy j Vj).
  by rewrite (H j Vj) (Axy j Vj).
have EK : K = dgram (gcov g) (data_of id (point_obs xs Y None)).
  by apply/matrixP=> i j; rewrite !mxE addr0.
have UK : K + noise_covm (None : option (normal Rf n)) \in unitmx by rewrite addr0 EK.
have [s [R M C]] := C20_at_points cholP tri Ad Y (b := None) (possemidef0 Rf n) UK.
exists s; split=> //; first by rewrite EK.
- by move=> x; rewrite M /= addr0 subr0.
- by move=> x y; rewrite C /= addr0.
- move=> i; have [/colP/(_ i)] := C20_noise_free_data cholP tri Ad G U (erefl _) R.
  by rewrite !mxE subr0.
Qed.
End Points.

(** * Examples: [LineCondEx]. *)
Lemma lex_proper (i : 'I_3) : proper (lex_obs i).
Proof. case: i => [[|[|[|i]]] //= _]; lra. Qed.
Lemma lex_separate (i j : 'I_3) : i != j -> separate (lex_obs i) (lex_obs j).
Proof. by case: i => [[|[|[|i]]] //= ?]; case: j => [[|[|[|j]]] //= ?] // _; [left | right]; apply: Rle_refl. Qed.
(** Bayesian quadrature with the prior of [LineCondEx] and mean 0. *)
Example C60_example : forall Y : 'cV[R]_3, exists s, from_observations (line_gp (fun _ => 0%R) lex_k) (quad_obs (fun i : 'I_3 => lex_obs i) Y None) = Ok s /\
  (forall i : 'I_3, iquantity (lex_obs i) (c_mean s) = Y i 0) /\
  forall i j : 'I_3, exists c, icov lex_k (lex_obs i) (lex_obs j) = Ok c.
Proof.
move=> Y; have [chol cholP] := C16_cholesky_contract_satisfiable [rcfType of R].
have [s [E _ _ M]] := C60_quadrature lex_prior (cont_const 0%R) cholP true lex_strict Y lex_proper lex_separate.
by exists s; split=> //; split=> // i j; apply: lex_gram.
Qed.
(** The value and the two integrals are independent. *)
Example C60_example_independent : forall Y : 'cV[R]_3, independent_line (summarise [seq line_step e | e <- [:: LScale 2%R; LObs (fun i : 'I_3 => to_obs (lex_obs i)) Y None]]).
Proof.
have H (v : 'cV[R]_3) : (forall n : nat, \sum_i v i 0 * quantity (to_obs (lex_obs i)) (fun x => Rmult 2 (pow x n)) = 0) -> v = 0.
  move=> Z.
  have [|a [b c]] := lex_system (v 0 0) (v (fintype.lift 0 0) 0) (v (fintype.lift 0 (fintype.lift 0 0)) 0).
    by move=> n; have := Z n; rewrite !big_ord_recl big_ord0 addr0 -!int_pow2.
  apply/colP=> i; rewrite mxE.
  have [->|[->|->]] : i = 0 \/ i = fintype.lift 0 0 \/ i = fintype.lift 0 (fintype.lift 0 0) by case: i => [[|[|[|i]]] //= ?]; [left | right; left | right; right]; apply: val_inj.
  - exact: a.
  - exact: b.
  - exact: c.
move=> Y /= v Z; apply: H => n; rewrite -[RHS](Z _ (pow_smooth n)); apply: eq_bigr => i _; by rewrite !mxE.
Qed.
Example C60_example_points : forall Y : 'cV[R]_4, exists s, from_observations (PdeCondProps.pde_prior (fun _ => 0%R) lex_mat) (point_obs (fun i : 'I_4 => lex_pts i) Y None) = Ok s /\
  forall i : 'I_4, c_mean s (lex_pts i) = Y i 0.
Proof.
move=> Y; have [chol cholP] := C16_cholesky_contract_satisfiable [rcfType of R].
have A (i j : 'I_4) : i != j -> ~ agree [:: 2%nat] (lex_pts i) (lex_pts j).
  by move=> ij; apply: lex_distinct => e; move/eqP: ij; apply; apply: val_inj.
by have [s [E _ _ _ M]] := C60_points (fun _ => 0%R) lex_points cholP true Y A; exists s.
Qed.

Print Assumptions C60_admissible. Print Assumptions C60_noisy. Print Assumptions C60_independent. Print Assumptions C60_dependent.
Print Assumptions C60_quadrature. Print Assumptions C60_gram_entries. Print Assumptions C60_points.
