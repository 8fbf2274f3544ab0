(** C58: conditioning processes with smooth covariance functions on values and
    derivatives. *)
From Coq Require Import Reals Lra FunctionalExtensionality.
From mathcomp Require Import all_ssreflect all_algebra.
From Verif Require Import Base NdArray FunExprModel DiffopModel DiffopSpec LfoModel LfoSpec LfoSmooth KernelModel KernelSpec KernelSmooth KernelProps TensorSchur PsdBase PdeCondBase
  Block2Spec MatPD Block2Props NormalModel CondModel CondSpec CondProofs CondPoint CondProps RealField PdeCond PdeCondSpec SmoothSym GaussStrict PdeCondEx.
From Verif Require ParamSpec PsdSpec PsdProps LfoProofs.
Set Implicit Arguments. Unset Strict Implicit. Unset Printing Implicit Defensive.
Import Order.TTheory GRing.Theory Num.Theory.
Local Open Scope ring_scope.
Notation Rf := [realFieldType of R].
Notation lobs := PsdSpec.obs.

(** The prior process with mean [m] and covariance function [k]. *)
Definition pde_prior (m : array -> R) (k : cov) : gp Rf array := GP (m : fn Rf array) (ceval k : array -> fn Rf array).
(** Observing the quantities [os]. *)
Definition pde_obs n (os : 'I_n -> lobs) (Y : 'cV[R]_n) (b : option (normal Rf n)) : obs Rf array :=
  @Obs Rf array n (fun f => \col_i observe (os i) f) Y b.
(** What happens to the process: conditioning on such observations and applying operators. *)
Inductive pde_event := PObs n (os : 'I_n -> lobs) (Y : 'cV[R]_n) (b : option (normal Rf n)) | PApply (L : lfo).
Definition pde_step (e : pde_event) : event Rf array :=
  match e with PObs n os Y b => Cond (pde_obs os Y b) | PApply L => Appl (ksem L : funop Rf array) end.
Definition pde_ok (sh : shape) (e : pde_event) : Prop :=
  match e with PObs n os Y b => (forall i, obs_dom sh (os i)) /\ possemidef (noise_covm b) | PApply L => okop L /\ opdom sh L end.
Definition pde_noisy (e : pde_event) : Prop := match e with PObs n os Y b => posdef (noise_covm b) | PApply L => True end.
Fixpoint all_events (P : pde_event -> Prop) (es : seq pde_event) : Prop := if es is e :: es' then P e /\ all_events P es' else True.
(** No combination of everything observed vanishes on all infinitely differentiable functions. *)
Definition independent_data (sh : shape) (s : summary Rf array) : Prop :=
  match s_data s with
  | Some (existT n d) => forall v, (forall f, c_infty sh f -> combination (d_L d) v f = 0) -> v = 0
  | None => True
  end.

Section Pde.
Variables (fuel : nat) (sh : shape) (e : kexpr) (k : cov) (m : array -> R).
Hypotheses (He : PsdSpec.kpos sh e) (Hb : kbuild fuel e = Ok k) (Hk : k <> CNotImpl) (Sm : smooth sh m).
Variable chol : forall n : nat, 'M[R]_n -> 'M[R]_n.
Hypothesis cholP : chol_spec (F := Rf) chol.
Variable tri : bool.
Notation g := (pde_prior m k).
Notation Sf := (pde_functl sh).
Notation So := (pde_op sh).

Lemma ceval_kmean : ceval k = kmean e.
Proof.
apply: functional_extensionality => x; apply: functional_extensionality => y.
exact: (C33_sound fuel e k (proj2 (PsdProps.kpos_class sh e He)) Hb Hk).
Qed.
Lemma adm : admissible (gmean g) (gcov g) Sf So.
Proof.
rewrite /= ceval_kmean; apply: pde_admissible => //.
- exact: (proj1 (PsdProps.kpos_class sh e He)).
- exact: (PsdProps.kpos_psd sh e He).
- exact: (kpos_sym sh e He).
Qed.
Lemma observe_op (o : lobs) f : observe o f = ksem (PsdProps.obs_op o.1) f o.2.
Proof. by case: o => [[L|] x]. Qed.
Lemma obs_dom_op (o : lobs) : obs_dom sh o -> okop (PsdProps.obs_op o.1) /\ opdom sh (PsdProps.obs_op o.1).
Proof. by case: o => [[L|] x]. Qed.
Lemma pde_good es : all_events (pde_ok sh) es -> good_events Sf So [seq pde_step e | e <- es].
Proof.
elim: es => [|ev es IH] //= [Hev /IH H]; split=> // {IH H}; case: ev Hev => [n os Y b|L] //= [H1 H2].
- split=> // i; exists [:: (1%R, (PsdProps.obs_op (os i).1, (os i).2))]; split=> [p [<-|[]] //|f].
    exact: (proj2 (obs_dom_op (H1 i))).
  by rewrite /component mxE observe_op dfun_cons mul1r addr0.
- by exists L.
Qed.
Lemma pde_noisy_events es : all_events pde_noisy es -> noisy_events [seq pde_step e | e <- es].
Proof. by elim: es => [|[n os Y b|L] es IH] //= [Hev /IH H]. Qed.

(** The assumptions of the theorems on conditioning (C20-C24) hold for these processes
    and observations. *)
Theorem C58_admissible : admissible (gmean g) (gcov g) Sf So /\
  forall es, all_events (pde_ok sh) es -> good_events Sf So [seq pde_step e | e <- es].
Proof. by split; [exact: adm | exact: pde_good]. Qed.

Lemma history es : all_events (pde_ok sh) es -> spec_gram_unit g (summarise [seq pde_step e | e <- es]) ->
  exists p, [/\ run chol tri (Plain g) [seq pde_step e | e <- es] = Ok p,
    forall x, p_mean p x = spec_mean g (summarise [seq pde_step e | e <- es]) x,
    forall x y, p_cov p x y = Ok (spec_cov g (summarise [seq pde_step e | e <- es]) x (odflt x y)) &
    forall q (xs : 'I_q -> array), possemidef (\matrix_(i, j) spec_cov g (summarise [seq pde_step e | e <- es]) (xs i) (xs j))].
Proof.
move=> /pde_good G U; have [p [R M C]] := C24_history cholP tri adm G U; exists p; split=> // q xs.
apply: (C23_covariance cholP adm G U R (xs := xs)) => i j; by rewrite C mxE.
Qed.
(** Noisy data: conditioning always succeeds and gives the posterior, whose covariance
    matrices are positive semidefinite. *)
Theorem C58_noisy : forall es, all_events (pde_ok sh) es -> all_events pde_noisy es ->
  exists p, [/\ run chol tri (Plain g) [seq pde_step e | e <- es] = Ok p,
    forall x, p_mean p x = spec_mean g (summarise [seq pde_step e | e <- es]) x,
    forall x y, p_cov p x y = Ok (spec_cov g (summarise [seq pde_step e | e <- es]) x (odflt x y)) &
    forall q (xs : 'I_q -> array), possemidef (\matrix_(i, j) spec_cov g (summarise [seq pde_step e | e <- es]) (xs i) (xs j))].
Proof.
by move=> es H N; apply: history => //; apply: (C20_noisy_data adm); [apply: pde_good | apply: pde_noisy_events].
Qed.

Lemma sections_null n (d : data Rf array n) v t : tdom sh t -> (forall f, dfun t f = combination (d_L d) v f) ->
  (forall z, combination (d_L d) v (gcov g z) = 0) -> dfun t (fun x => dfun t (kmean e x)) = 0.
Proof.
move=> T E Z; rewrite -ceval_kmean.
have -> : (fun x => dfun t (ceval k x)) = (fun x => Rmult 0%R (ceval k x x)).
  by apply: functional_extensionality => x; rewrite E Z; exact: (esym (Rmult_0_l _)).
rewrite -[RHS](mul0r (dfun t (fun _ => 0%R))) -[RHS](dfun_scal sh t 0%R (fun _ => 0%R) T (smooth_const sh 0%R)).
by congr dfun; apply: functional_extensionality => x; rewrite !Rmult_0_l.
Qed.
Lemma data_terms n (L : functl Rf array n) v : (forall i, Sf (component L i)) -> exists2 t, tdom sh t & forall f, dfun t f = combination L v f.
Proof.
move=> /fin_all_exists [ss Hs]; exists (tcombo (fun i => v i 0) ss (enum 'I_n)).
  by apply: tdom_tcombo => i; case: (Hs i).
by move=> f; rewrite dfun_tcombo big_enum /=; apply: eq_bigr => i _; case: (Hs i) => _ <-.
Qed.

Hypothesis Hs : kstrict sh e.
Lemma independent_unit es : all_events (pde_ok sh) es -> independent_data sh (summarise [seq pde_step e | e <- es]) ->
  spec_gram_unit g (summarise [seq pde_step e | e <- es]).
Proof.
move=> /pde_good G; have S := sgood_steps adm (start_good g Sf So) G.
rewrite -/(summarise _) in S; move: S; rewrite /spec_gram_unit /independent_data /sgood; case: (s_data _) => [[n d]|] // [_ [HL HN]] I.
apply: (gram_lemma adm HL HN) => v Z; apply: I => f Cf.
have [t T E] := data_terms v HL; rewrite -E -pfun_one.
exact: (kstrict_universal sh e t Hs T (sections_null T E Z)).
Qed.
(** With a squared exponential summand in the covariance function it is enough that no
    combination of the observed quantities vanishes on all infinitely differentiable
    functions; noise is not needed. *)
Theorem C58_independent : forall es, all_events (pde_ok sh) es -> independent_data sh (summarise [seq pde_step e | e <- es]) ->
  exists p, [/\ run chol tri (Plain g) [seq pde_step e | e <- es] = Ok p,
    forall x, p_mean p x = spec_mean g (summarise [seq pde_step e | e <- es]) x,
    forall x y, p_cov p x y = Ok (spec_cov g (summarise [seq pde_step e | e <- es]) x (odflt x y)) &
    forall q (xs : 'I_q -> array), possemidef (\matrix_(i, j) spec_cov g (summarise [seq pde_step e | e <- es]) (xs i) (xs j))].
Proof. by move=> es H I; apply: history => //; apply: independent_unit. Qed.

Lemma ci_section z : c_infty sh (ceval k z).
Proof. rewrite ceval_kmean; exact: (ci_kclass1 sh (kmean e) z (proj1 (PsdProps.kpos_class sh e He))). Qed.
(** For noise-free data this is also necessary. *)
Theorem C58_noise_free_iff : forall n (os : 'I_n -> lobs) Y b, (forall i, obs_dom sh (os i)) -> noise_covm b = 0 ->
  (dgram (gcov g) (data_of id (pde_obs os Y b)) \in unitmx <->
   forall v : 'cV[R]_n, (forall f, c_infty sh f -> \sum_i v i 0 * observe (os i) f = 0) -> v = 0).
Proof.
move=> n os Y b D N0.
have G : good_event Sf So (Cond (pde_obs os Y b)).
  by apply: (proj1 (@pde_good [:: PObs os Y b] _)); split=> //; split=> //; rewrite N0; apply: possemidef0.
split=> [/(C20_gram_noise_free adm G N0) U v Z|I].
  apply: U => z; rewrite /combination -[RHS](Z _ (ci_section z)); by apply: eq_bigr => i _; rewrite mxE.
apply: (@independent_unit [:: PObs os Y b]); first by split=> //; split=> //; rewrite N0; apply: possemidef0.
move=> v Z; apply: I => f Cf; rewrite -[RHS](Z f Cf); by apply: eq_bigr => i _; rewrite mxE.
Qed.

Lemma sumR_big (A : Type) (h : A -> R) r : sumR h r = \sum_(i <- r) h i.
Proof. by elim: r => [|i r IH]; rewrite ?big_nil // big_cons -IH. Qed.
Definition agreeb (x y : array) : bool := List.forallb (fun i => x i == y i) (all_indices sh).
Lemma agreebP x y : reflect (agree sh x y) (agreeb x y).
Proof.
apply: (iffP idP) => [/List.forallb_forall H i /NdArray.all_indices_spec Hi|H].
  by apply/eqP; apply: H.
by apply/List.forallb_forall => i /NdArray.all_indices_spec Hi; apply/eqP; apply: H.
Qed.
Lemma distinct_independent n (os : 'I_n -> lobs) : (forall i, obs_dom sh (os i)) -> (forall i, informative sh (os i)) ->
  (forall i j, i != j -> ~ agree sh (os i).2 (os j).2) ->
  forall v : 'cV[R]_n, (forall z, \sum_i v i 0 * observe (os i) (ceval k z) = 0) -> v = 0.
Proof.
move=> D I A v Z; apply/colP=> i; rewrite mxE.
pose t : terms := [seq (v j 0, (PsdProps.obs_op (os j).1, (os j).2)) | j <- enum 'I_n].
have T : tdom sh t by move=> p /List.in_map_iff [j [<- _]] /=; case: (obs_dom_op (D j)).
have E phi f : pfun phi t f = \sum_j phi (os j).2 * (v j 0 * observe (os j) f).
  rewrite /pfun /t sumR_big big_map big_enum /=; by apply: eq_bigr => j _; rewrite observe_op.
have Z2 : dfun t (fun x => dfun t (kmean e x)) = 0.
  have E1 f : dfun t f = \sum_j v j 0 * observe (os j) f.
    by rewrite -pfun_one E; apply: eq_bigr => j _; rewrite mul1r.
  have -> : (fun x => dfun t (kmean e x)) = (fun x => Rmult 0%R 0%R).
    by apply: functional_extensionality => x; rewrite E1 -ceval_kmean Z; exact: (esym (Rmult_0_l _)).
  by rewrite (dfun_scal sh t 0%R (fun _ => 0%R) T (smooth_const sh 0%R)); exact: Rmult_0_l.
have [f [Cf f0]] := I i.
have := kstrict_universal sh e t Hs T Z2 (fun y => if agreeb (os i).2 y then 1%R else 0%R) f.
rewrite E (bigD1 i) //= big1 => [|j ji]; last first.
  by case: agreebP => [/A H|_]; [case: H; rewrite eq_sym | rewrite mul0r].
case: agreebP => [_|]; last by case.
rewrite mul1r addr0 => H; have {}H := H _ Cf.
have /eqP : v i 0 * observe (os i) f = 0.
  apply: H => x y Axy; congr (if _ then _ else _); apply/agreebP/agreebP => H j Vj; first by rewrite (H j Vj) (Axy j Vj).
  by rewrite (H j Vj) (Axy j Vj).
by rewrite mulf_eq0 => /orP[/eqP //|/eqP].
Qed.
(** Collocation: values and derivatives at different points, without noise.  Conditioning
    succeeds and the posterior mean has exactly the observed values and derivatives. *)
Theorem C58_collocation : forall n (os : 'I_n -> lobs) (Y : 'cV[R]_n), (forall i, obs_dom sh (os i)) -> (forall i, informative sh (os i)) ->
  (forall i j, i != j -> ~ agree sh (os i).2 (os j).2) ->
  exists s, [/\ from_observations g (pde_obs os Y None) = Ok s,
    forall x, c_mean s x = post_mean m (ceval k) id (data_of id (pde_obs os Y None)) x,
    forall x y, c_cov s x (Some y) = Ok (post_cov (F := Rf) (ceval k) id (data_of id (pde_obs os Y None)) x y) &
    forall i, observe (os i) (c_mean s) = Y i 0].
Proof.
move=> n os Y D I A; have G : good_event Sf So (Cond (pde_obs os Y None)).
  by apply: (proj1 (@pde_good [:: PObs os Y None] _)); split=> //; split=> //; apply: possemidef0.
have U : dgram (gcov g) (data_of id (pde_obs os Y None)) \in unitmx.
  apply: (C20_gram_invertible adm G) => v Z; apply: (distinct_independent D I A) => z.
  by rewrite -[RHS](Z z); apply: eq_bigr => i _; rewrite mxE.
have [s [R M C _]] := C20_posterior cholP tri adm G U; exists s; split=> // i.
have [/colP/(_ i)] := C20_noise_free_data cholP tri adm G U (erefl _) R.
by rewrite !mxE subr0.
Qed.
(** The Gram matrix is computed by the covariance function itself. *)
Theorem C58_gram_entries : forall n (os : 'I_n -> lobs) Y b i j c, (forall i, obs_dom sh (os i)) -> gram_entry fuel k (os i) (os j) = Ok c ->
  dgram (gcov g) (data_of id (pde_obs os Y b)) i j = c + noise_covm b i j.
Proof.
move=> n os Y b i j c D; rewrite /gram_entry => H.
have [k1 [R1 {}H]] := LfoProofs.bind_ok _ _ _ H; have [k0 [R0 {}H]] := LfoProofs.bind_ok _ _ _ H.
have [_ Ox] := PsdProps.kpos_class sh e He.
have [Oi _] := obs_dom_op (D i); have [Oj _] := obs_dom_op (D j).
have [e1 [O1 [B1 M1]]] := PsdProps.obs_apply fuel e k (os j).1 1 k1 Ox Hb (or_intror (erefl _)) Oj R1.
have [e0 [O0 [B0 M0]]] := PsdProps.obs_apply fuel e1 k1 (os i).1 0 k0 O1 B1 (or_introl (erefl _)) Oi R0.
have N : k0 <> CNotImpl by move=> E; rewrite E in H.
have -> : c = ceval k0 (os i).2 (os j).2 by case: k0 N H {R0 B0} => // *; congruence.
rewrite (C33_sound fuel e0 k0 O0 B0 N) M0 M1 !mxE; congr (_ + _).
rewrite observe_op /in_arg; congr (ksem _ _ _); apply: functional_extensionality => x.
by rewrite mxE observe_op /= -ceval_kmean.
Qed.
End Pde.

(** * Example: [PdeCondEx]. *)
Example C58_example : let os (i : 'I_3) := exp_obs i in
  kstrict [::] exp_k /\ PsdSpec.kpos [::] exp_k /\
  (exists k, kbuild 9 exp_k = Ok k /\ k <> CNotImpl /\ forall i j, exists c, gram_entry 9 k (os i) (os j) = Ok c) /\
  smooth [::] (fun _ => 0%R) /\ (forall i, obs_dom [::] (os i)) /\ (forall i, informative [::] (os i)) /\
  (forall i j, i != j -> ~ agree [::] (os i).2 (os j).2) /\ exists chol : forall n, 'M[R]_n -> 'M[R]_n, chol_spec (F := Rf) chol.
Proof.
split; first exact: exp_strict.
split; first exact: (kstrict_pos _ _ exp_strict).
split; first by have [k [B [N G]]] := exp_built; exists k; split=> //; split=> // i j; apply: G.
split; first exact: smooth_const.
split; first by move=> i; apply: exp_dom.
split; first by move=> i; apply: exp_informative.
split; last exact: (C16_cholesky_contract_satisfiable [rcfType of R]).
by move=> i j ij; apply: exp_distinct; [exact: (elimT ssrnat.ltP (ltn_ord i)) | exact: (elimT ssrnat.ltP (ltn_ord j)) | move=> E; move: ij; have -> : i = j by [exact: val_inj]; rewrite eqxx].
Qed.
(** Everything together. *)
Example C58_example_conditioned : forall Y : 'cV[R]_3, exists k s, kbuild 9 exp_k = Ok k /\
  from_observations (pde_prior (fun _ => 0%R) k) (pde_obs (fun i : 'I_3 => exp_obs i) Y None) = Ok s /\
  forall i : 'I_3, observe (exp_obs i) (c_mean s) = Y i 0.
Proof.
move=> Y; have [S [P [[k [B [N _]]] [Sm [D [I [A [chol cholP]]]]]]]] := C58_example.
by have [s [R _ _ M]] := C58_collocation P B N Sm cholP true S Y D I A; exists k, s.
Qed.

Print Assumptions C58_admissible. Print Assumptions C58_noisy. Print Assumptions C58_independent. Print Assumptions C58_noise_free_iff.
Print Assumptions C58_collocation. Print Assumptions C58_gram_entries.
