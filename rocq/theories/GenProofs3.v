(** Operators given by coefficients, on covariance functions and stacks of them. *)
From Coq Require Import List Reals Lra Lia Bool Arith ZArith FunctionalExtensionality.
From Coquelicot Require Import Coquelicot.
From Verif Require Import Base NdArray FunExprModel FunExprProofs DiffopModel DiffopSpec DiffopProofs
  LfoModel LfoSpec LfoSmooth LfoProofs LfoSound LfoTotal ShapedModel KernelModel KernelSpec KernelSmooth KernelSound FunctlAlg GenModel GenSpec GenProofs GenProofs2.
Import ListNotations.
Open Scope R_scope.

(** ** The operator in one argument of a kernel *)
Definition carg (c : coeffs RF) (a : nat) (k : kernel) : kernel := in_arg a (fun f => csem c (fun z _ => f z)) k.
Lemma carg_sum c a k x0 x1 : carg c a k x0 x1 =
  total (map (fun '(i, inn) => total (map (fun '(al, y) => y * in_arg a (dsem (DPartialNoJax al)) k x0 x1) inn)) (c_dict c)).
Proof. destruct a; reflexivity. Qed.
Lemma carg_scal c a sh s k : coeffs_ok c -> c_dom c = sh -> kclass sh k -> carg c a (fun x0 x1 => s * k x0 x1) = fun x0 x1 => s * carg c a k x0 x1.
Proof.
  intros O E K. extensionality x0. extensionality x1. rewrite !carg_sum, <- total_mult. apply total_ext. intros [i inn] I. rewrite <- total_mult.
  apply total_ext. intros [al y] Ha. rewrite (in_scal sh); [ring|exact K|]. destruct (proj2 O i inn I) as (_ & _ & A). rewrite <- E. exact (proj2 (A al y Ha)).
Qed.
Lemma carg_total {A} c a sh (h : A -> kernel) l : coeffs_ok c -> c_dom c = sh -> (forall y, In y l -> kclass sh (h y)) ->
  carg c a (fun x0 x1 => total (map (fun y => h y x0 x1) l)) = fun x0 x1 => total (map (fun y => carg c a (h y) x0 x1) l).
Proof.
  intros O E K. extensionality x0. extensionality x1. rewrite carg_sum.
  transitivity (total (map (fun y => total (map (fun '(i, inn) => total (map (fun '(al, z) => z * in_arg a (dsem (DPartialNoJax al)) (h y) x0 x1) inn)) (c_dict c))) l)).
  2: { apply total_ext. intros y Hy. now rewrite carg_sum. }
  refine (eq_trans _ (eq_sym (total_swap (fun y (e : list Z * inner RF) => let '(i, inn) := e in total (map (fun '(al, z) => z * in_arg a (dsem (DPartialNoJax al)) (h y) x0 x1) inn)) l (c_dict c)))).
  apply total_ext. intros [i inn] I.
  refine (eq_trans _ (eq_sym (total_swap (fun y (e : mi * R) => let '(al, z) := e in z * in_arg a (dsem (DPartialNoJax al)) (h y) x0 x1) l inn))).
  apply total_ext. intros [al z] Ha. rewrite (in_total sh); [now rewrite <- total_mult|exact K|].
  destruct (proj2 O i inn I) as (_ & _ & Al). rewrite <- E. exact (proj2 (Al al z Ha)).
Qed.
Lemma okop_gsum c : coeffs_ok c -> okop (gsum DPartialNoJax c).
Proof.
  intros [_ H]. unfold gsum. cbn [okop]. assert (G : forall d, (forall e, In e d -> In e (c_dict c)) ->
    fold_right (fun M P => okop M /\ P) True (map (fun '(_, inn) => OSum (map (fun '(a, x) => OScaled x (ODiff (DPartialNoJax a))) inn)) d)); [|now apply G].
  induction d as [|[i inn] d IH]; intros I; [exact Logic.I|]. cbn [map fold_right]. split; [|apply IH; intros; apply I; now right].
  cbn [okop]. destruct (H i inn (I _ (or_introl eq_refl))) as (_ & _ & A). clear - A. induction inn as [|[a y] inn IH]; [exact Logic.I|]. cbn [map fold_right okop].
  split; [exact (proj1 (A a y (or_introl eq_refl)))|]. apply IH. intros b z Hb. exact (A b z (or_intror Hb)).
Qed.
(** A sum of multiples is never the object [NotImplemented]. *)
Lemma scale_real s k r : cov_scale s k = Ok r -> is_cov r = true.
Proof. destruct k; cbn; intros [= <-]; reflexivity. Qed.
Lemma add_real a b r : cov_add a b = Ok r -> is_cov r = true.
Proof.
  unfold cov_add, mk_covsum. destruct (negb _); [discriminate|]. destruct (forallb _ _); [|discriminate]. now intros [= <-].
Qed.
Lemma fold_real {A} (f : A -> result cov) l : forall r q, is_cov r = true ->
  fold_left (fun acc y => bind acc (fun a => bind (f y) (fun b => cov_add a b))) l (Ok r) = Ok q -> is_cov q = true.
Proof.
  induction l as [|y l IH]; intros r q Hr; [now intros [= <-]|]. cbn [fold_left bind]. destruct (f y) as [b|e]; cbn [bind].
  - destruct (cov_add r b) as [p|e] eqn:E; [apply IH; now apply (add_real r b)|]. rewrite (fold_err0 f cov_add e). discriminate.
  - rewrite (fold_err0 f cov_add e). discriminate.
Qed.
Lemma csum_unf n L Ls k a : ccall (S n) (OSum (L :: Ls)) k a = fold_left (fun acc M => bind acc (fun r => bind (ccall n M k a) (fun b => cov_add r b))) Ls (ccall n L k a).
Proof. reflexivity. Qed.
Lemma cscaled_unf n s L k a : ccall (S n) (OScaled s L) k a = bind (ccall n L k a) (cov_scale s).
Proof. reflexivity. Qed.
Lemma sum_real n L Ls k a r : (forall q, ccall n L k a = Ok q -> is_cov q = true) -> ccall (S n) (OSum (L :: Ls)) k a = Ok r -> is_cov r = true.
Proof.
  intros H. rewrite csum_unf. destruct (ccall n L k a) as [q|e] eqn:E; [apply fold_real; now apply H|].
  rewrite (fold_err0 (fun M => ccall n M k a) cov_add e). discriminate.
Qed.
Lemma gsum_real n c k a r : coeffs_ok c -> ccall n (gsum DPartialNoJax c) k a = Ok r -> is_cov r = true.
Proof.
  intros O. destruct (first_terms c O) as (i & al & y & inn & d & E). unfold gsum. rewrite E. cbn [map].
  destruct n as [|n]; [discriminate|]. apply sum_real. intros q. destruct n as [|n]; [discriminate|]. apply sum_real. intros p.
  destruct n as [|n]; [discriminate|]. rewrite cscaled_unf. intros H. apply bind_ok in H as (z & _ & H). now apply scale_real in H.
Qed.
Lemma fam_real sh k : fam sh k -> is_cov k = true. Proof. now destruct 1. Qed.
Lemma gsum_carg c a k : coeffs_ok c -> c_cod c = [] -> in_arg a (ksem (gsum DPartialNoJax c)) k = carg c a k.
Proof.
  intros O E. unfold carg. f_equal. extensionality f. extensionality x. now apply gsum_ksem.
Qed.

Lemma gen_ccall_sound n c : coeffs_ok c -> forall sh k a k', fam sh k -> gen_ccall n c k a = Ok (Some k') ->
  fam sh k' /\ ceval k' = carg c a (ceval k).
Proof.
  intros O. induction n as [|n IH]; intros sh k a k' F H; [discriminate|]. cbn [gen_ccall] in H. rewrite (fam_real sh k F) in H. cbn [negb] in H.
  apply bind_ok in H as (u & Hv & H). apply validate_ok in Hv as (Ha & Es & Ec). rewrite (fam_shape sh k F) in Es.
  apply or_else_ok in H as [H|H]; [apply or_else_ok in H as [H|H]|].
  - destruct F as [e E|e v r E|e v0 v1 E|e w r E|e w0 w1 E|e v w r E|s k F|k ks F|f K]; try discriminate.
    + apply bind_ok in H as ([r|] & Hr & H); [|discriminate]. cbn [gen_scale] in H. apply bind_ok in H as (q & Hq & [= <-]).
      destruct (IH sh k a r F Hr) as [Fr Vr].
      destruct (scale_app sh a (fun f => csem c (fun z _ => f z)) (ceval k) s r q ltac:(reflexivity)) as [F' E']; [right; split; [exact Fr|exact Vr]|exact Hq|].
      split; [exact F'|]. rewrite E'. symmetry. apply (carg_scal c a sh s (ceval k) O (eq_sym Es)). now apply fam_class.
    + apply bind_ok in H as (rs & Hrs & H). apply mapM_ok in Hrs. unfold gen_covsum in H.
      destruct (forallb _ rs) eqn:B; [|destruct (flat_map _ rs); [discriminate|]; apply bind_ok in H as (? & _ & H); discriminate].
      apply bind_ok in H as (q & Hq & [= <-]).
      assert (Q : exists qs, rs = map Some qs /\ flat_map (fun k => match k with Some k => [k] | None => [] end) rs = qs).
      { clear - B. induction rs as [|[r|] rs IHr]; [exists []; now split| |discriminate]. cbn in B. destruct (IHr B) as (qs & -> & Eq). exists (r :: qs). cbn. now rewrite Eq. }
      destruct Q as (qs & -> & Eq). rewrite Eq in Hq. clear B Eq.
      assert (F2 : Forall2 (fun x r => fam sh r /\ ceval r = carg c a (ceval x)) (k :: ks) qs).
      { clear - IH F Hrs. revert F qs Hrs. generalize (k :: ks). induction l as [|x l IHl]; intros F qs Hrs; destruct qs as [|q qs]; inversion Hrs as [|? ? ? ? Hx Hr]; subst; constructor.
        - apply (IH sh); [apply F; now left|exact Hx].
        - apply IHl; [intros; apply F; now right|exact Hr]. }
      destruct (covsum_app sh qs q) as (F' & _ & E').
      { clear - F2. intros r Hr. right. induction F2 as [|x q l qs [Fq _] F2 IHF]; [destruct Hr|]. destruct Hr as [<-|Hr]; auto. }
      { exact Hq. }
      split; [exact F'|]. rewrite E'.
      change (ceval (CSum (k :: ks))) with (fun x0 x1 => total (map (fun y => ceval y x0 x1) (k :: ks))).
      rewrite (carg_total c a sh ceval (k :: ks) O (eq_sym Es)); [|intros y Hy; apply fam_class; now apply F].
      extensionality x0. extensionality x1. clear - F2. induction F2 as [|x q l qs [_ V] F2 IHF]; [reflexivity|].
      unfold total. cbn [map fold_right]. f_equal; [now rewrite V|exact IHF].
  - destruct (gen_lfo_ok c O) as (EL & _). rewrite EL in H. cbn [bind] in H. apply bind_ok in H as (r & Hr & [= <-]).
    assert (R := gsum_real n c k a r O Hr). apply (ccall_sound n sh) in Hr; [|exact F|exact Ha|now apply okop_gsum].
    destruct Hr as [->|[F' E']]; [discriminate|]. split; [exact F'|]. rewrite E'. now apply gsum_carg.
  - unfold gen_cov_jax in H. apply bind_ok in H as (ts & _ & H). destruct (existsb _ ts); discriminate.
Qed.

(** ** The squared exponential covariance function *)
Definition cgood (sh : shape) (k : cov) : Prop := is_cov k = true /\ c_shape k = sh.
Lemma cgood_add sh a b : cgood sh a -> cgood sh b -> exists r, cov_add a b = Ok r /\ cgood sh r.
Proof.
  intros [Ca Sa] [Cb Sb]. unfold cov_add, mk_covsum. cbn [forallb]. rewrite Ca, Cb, Sa, Sb, !shape_eqb_refl. cbn. eexists. split; [reflexivity|]. split; [reflexivity|]. exact Sa.
Qed.
Lemma cgood_scale sh s k : cgood sh k -> exists r, cov_scale s k = Ok r /\ cgood sh r.
Proof. intros [C S]. destruct k; try discriminate; eexists; (split; [reflexivity|]); split; (reflexivity || exact S). Qed.
Lemma exp_term n e al a : isarg a -> mi_shape al = eq_shape e -> 
  (known_order (eq_shape e) al -> exists r, ccall (S (S n)) (ODiff (DPartialNoJax al)) (CExp e) a = Ok r /\ cgood (eq_shape e) r) /\
  (unknown_order (eq_shape e) al -> ccall (S (S n)) (ODiff (DPartialNoJax al)) (CExp e) a = Ok CNotImpl).
Proof.
  intros Ha Es. assert (V : validate (eq_shape e) [] (CExp e) a = Ok tt).
  { unfold validate. destruct Ha as [-> | ->]; cbn; now rewrite shape_eqb_refl. }
  assert (U : ccall (S (S n)) (ODiff (DPartialNoJax al)) (CExp e) a = partial_derivative_fallback (ccall (S n)) al (CExp e) a) by reflexivity.
  rewrite U. clear U. unfold partial_derivative_fallback. rewrite Es, V. cbn [bind]. split.
  - intros [Z|[E L]]; [rewrite Z; eexists; split; [reflexivity|]; now split|]. rewrite E in *. change (size [] =? 1)%nat with true. cbn [andb].
    destruct (mi_order al) as [|[|[|m]]]; [| | |lia]; cbn [Nat.eqb].
    + eexists. split; [reflexivity|]. now split.
    + change (ccall (S n) (ODiff (DDir [] (fun _ => 1))) (CExp e) a) with (bind (validate [] [] (CExp e) a) (fun _ => Ok (CExpDir e (fun _ => 1) (is0 a)))).
      rewrite V. eexists. split; [reflexivity|]. now split.
    + change (ccall (S n) (ODiff (DLap false [] (fun _ => 1))) (CExp e) a) with (bind (validate [] [] (CExp e) a) (fun _ => Ok (CExpLap e (fun _ => 1) (is0 a)))).
      rewrite V. eexists. split; [reflexivity|]. now split.
  - intros [N [M|M]].
    + apply Nat.eqb_neq in N, M. now rewrite N, M.
    + apply Nat.eqb_neq in N. rewrite N. replace (mi_order al =? 1)%nat with false by (symmetry; apply Nat.eqb_neq; lia).
      replace (mi_order al =? 2)%nat with false by (symmetry; apply Nat.eqb_neq; lia). now rewrite !andb_false_r.
Qed.
Section Exp.
Variables (c : coeffs RF) (e : expquad) (a : nat).
Hypothesis O : coeffs_ok c.
Hypothesis Ed : c_dom c = eq_shape e.
Hypothesis Ha : isarg a.
Let k := CExp e.
Lemma exp_scaled n al y : mi_shape al = c_dom c ->
  (known_order (eq_shape e) al -> good (fun L => ccall (S (S (S n))) L k a) (cgood (eq_shape e)) (OScaled y (ODiff (DPartialNoJax al)))) /\
  (unknown_order (eq_shape e) al -> ccall (S (S (S n))) (OScaled y (ODiff (DPartialNoJax al))) k a = Err TypeError).
Proof.
  intros Es. unfold good, k. rewrite cscaled_unf. rewrite Ed in Es. destruct (exp_term n e al a Ha Es) as [G B]. split; intros H.
  - destruct (G H) as (r & -> & Gr). cbn [bind]. now apply cgood_scale.
  - now rewrite (B H).
Qed.
Lemma exp_inner n i inn : In (i, inn) (c_dict c) -> 
  ((forall al y, In (al, y) inn -> known_order (eq_shape e) al) -> good (fun L => ccall (S (S (S (S n)))) L k a) (cgood (eq_shape e)) (OSum (map (fun '(a, x) => OScaled x (ODiff (DPartialNoJax a))) inn))) /\
  ((forall al y, In (al, y) inn -> known_order (eq_shape e) al \/ unknown_order (eq_shape e) al) -> (exists al y, In (al, y) inn /\ unknown_order (eq_shape e) al) ->
    ccall (S (S (S (S n)))) (OSum (map (fun '(a, x) => OScaled x (ODiff (DPartialNoJax a))) inn)) k a = Err TypeError).
Proof.
  intros HI. destruct (proj2 O i inn HI) as (N & _ & A). destruct inn as [|[al0 y0] inn]; [now elim N|].
  assert (G : forall L, In L (map (fun '(a, x) => OScaled x (ODiff (DPartialNoJax a))) ((al0, y0) :: inn)) -> exists al y, L = OScaled y (ODiff (DPartialNoJax al)) /\ In (al, y) ((al0, y0) :: inn)).
  { intros L HL. apply in_map_iff in HL as ([al y] & <- & Hy). eauto. }
  unfold good. cbn [map]. rewrite csum_unf. split; intros H.
  - apply (reduce_good (fun L => ccall (S (S (S n))) L k a) cov_add _ (cgood_add (eq_shape e))). intros L HL. destruct (G L HL) as (al & y & -> & Hy).
    apply exp_scaled; [exact (proj2 (A al y Hy))|]. exact (H al y Hy).
  - intros (al & y & Hy & U). apply (reduce_bad (fun L => ccall (S (S (S n))) L k a) cov_add _ TypeError (cgood_add (eq_shape e))).
    + intros L HL. destruct (G L HL) as (bl & z & -> & Hz). destruct (exp_scaled n bl z (proj2 (A bl z Hz))) as [G1 G2]. destruct (H bl z Hz); auto.
    + exists (OScaled y (ODiff (DPartialNoJax al))). split.
      * change (In (OScaled y (ODiff (DPartialNoJax al))) (map (fun '(a, x) => OScaled x (ODiff (DPartialNoJax a))) ((al0, y0) :: inn))).
        apply in_map_iff. exists (al, y). now split.
      * now apply exp_scaled; [exact (proj2 (A al y Hy))|].
Qed.
Lemma exp_gsum n :
  (multi_indices (known_order (eq_shape e)) c -> good (fun L => ccall (S (S (S (S (S n))))) L k a) (cgood (eq_shape e)) (gsum DPartialNoJax c)) /\
  (multi_indices (fun al => known_order (eq_shape e) al \/ unknown_order (eq_shape e) al) c -> (exists i inn al y, In (i, inn) (c_dict c) /\ In (al, y) inn /\ unknown_order (eq_shape e) al) ->
    ccall (S (S (S (S (S n))))) (gsum DPartialNoJax c) k a = Err TypeError).
Proof.
  assert (N : map (fun '(_, inn) => OSum (map (fun '(a, x) => OScaled x (ODiff (DPartialNoJax a))) inn)) (c_dict c) <> []) by (destruct (first_terms c O) as (i & al & y & inn & d & ->); discriminate).
  assert (G : forall L, In L (map (fun '(_, inn) => OSum (map (fun '(a, x) => OScaled x (ODiff (DPartialNoJax a))) inn)) (c_dict c)) ->
    exists i inn, L = OSum (map (fun '(a, x) => OScaled x (ODiff (DPartialNoJax a))) inn) /\ In (i, inn) (c_dict c)).
  { intros L HL. apply in_map_iff in HL as ([i inn] & <- & HI). eauto. }
  unfold good, gsum. split; intros H.
  - assert (H' : forall L, In L (map (fun '(_, inn) => OSum (map (fun '(a, x) => OScaled x (ODiff (DPartialNoJax a))) inn)) (c_dict c)) -> good (fun L => ccall (S (S (S (S n)))) L k a) (cgood (eq_shape e)) L).
    { intros L HL. destruct (G L HL) as (i & inn & -> & HI). apply (exp_inner n i inn HI). intros al y Hy. exact (H i inn al y HI Hy). }
    revert N H'. generalize (map (fun '(_, inn) => OSum (map (fun '(a, x) => OScaled x (ODiff (DPartialNoJax a))) inn)) (c_dict c)). intros [|L Ls] N H'; [congruence|].
    rewrite csum_unf. now apply (reduce_good (fun L => ccall (S (S (S (S n)))) L k a) cov_add _ (cgood_add (eq_shape e))).
  - intros (i & inn & al & y & HI & Hy & U).
    assert (D : forall inn : list (mi * R), (forall al y, In (al, y) inn -> known_order (eq_shape e) al \/ unknown_order (eq_shape e) al) ->
       (forall al y, In (al, y) inn -> known_order (eq_shape e) al) \/ exists al y, In (al, y) inn /\ unknown_order (eq_shape e) al).
    { clear. induction inn as [|[al y] inn IH]; intros H; [left; intros ? ? []|]. destruct IH as [IH|(bl & z & Hb & U)]; [intros; eapply H; right; eassumption| |right; exists bl, z; split; [now right|exact U]].
      destruct (H al y (or_introl eq_refl)) as [K|U]; [left|right; exists al, y; split; [now left|exact U]]. intros bl z [[= <- <-]|Hb]; eauto. }
    assert (H' : forall L, In L (map (fun '(_, inn) => OSum (map (fun '(a, x) => OScaled x (ODiff (DPartialNoJax a))) inn)) (c_dict c)) -> good (fun L => ccall (S (S (S (S n)))) L k a) (cgood (eq_shape e)) L \/ ccall (S (S (S (S n)))) L k a = Err TypeError).
    { intros L HL. destruct (G L HL) as (j & jnn & -> & HJ). assert (HH : forall al y, In (al, y) jnn -> known_order (eq_shape e) al \/ unknown_order (eq_shape e) al) by (intros bl z Hz; exact (H j jnn bl z HJ Hz)).
      destruct (exp_inner n j jnn HJ) as [G1 G2]. destruct (D jnn HH) as [K|UU]; auto. }
    assert (X : In (OSum (map (fun '(a, x) => OScaled x (ODiff (DPartialNoJax a))) inn)) (map (fun '(_, inn) => OSum (map (fun '(a, x) => OScaled x (ODiff (DPartialNoJax a))) inn)) (c_dict c))).
    { apply in_map_iff. exists (i, inn). now split. }
    assert (Y : ccall (S (S (S (S n)))) (OSum (map (fun '(a, x) => OScaled x (ODiff (DPartialNoJax a))) inn)) k a = Err TypeError).
    { apply (exp_inner n i inn HI); [|eauto]. intros bl z Hz. exact (H i inn bl z HI Hz). }
    revert H' X. generalize (map (fun '(_, inn) => OSum (map (fun '(a, x) => OScaled x (ODiff (DPartialNoJax a))) inn)) (c_dict c)). intros [|L Ls] H' X; [destruct X|].
    rewrite csum_unf. apply (reduce_bad (fun L => ccall (S (S (S (S n)))) L k a) cov_add _ TypeError (cgood_add (eq_shape e))); [exact H'|eauto].
Qed.
Lemma gen_exp n : c_cod c = [] ->
  (multi_indices (known_order (eq_shape e)) c -> exists k', gen_ccall (6 + n) c k a = Ok (Some k')) /\
  (multi_indices (fun al => known_order (eq_shape e) al \/ unknown_order (eq_shape e) al) c -> (exists i inn al y, In (i, inn) (c_dict c) /\ In (al, y) inn /\ unknown_order (eq_shape e) al) ->
    gen_ccall (6 + n) c k a = Err TypeError).
Proof.
  intros Ec. assert (V : validate (eq_shape e) [] k a = Ok tt).
  { unfold validate. destruct Ha as [-> | ->]; cbn; now rewrite shape_eqb_refl. }
  destruct (gen_lfo_ok c O) as (EL & _). destruct (exp_gsum n) as [G B].
  assert (U : gen_ccall (6 + n) c k a = bind (validate (c_dom c) (c_cod c) k a) (fun _ => or_else (bind (gen_lfo DPartialNoJax c) (fun L => bind (ccall (5 + n) L k a) (fun r => Ok (Some r)))) (gen_cov_jax c))) by reflexivity.
  rewrite U, Ed, Ec, V, EL. cbn [bind]. change (5 + n)%nat with (S (S (S (S (S n))))). split.
  - intros H. destruct (G H) as (r & Hr & _). rewrite Hr. cbn. eauto.
  - intros H HE. now rewrite (B H HE).
Qed.
End Exp.
(** A covariance function known by its jax implementation only *)
Lemma gen_jax_first n c sh f a i al y inn d : coeffs_ok c -> c_cod c = [] -> c_dom c = sh -> isarg a -> c_dict c = (i, (al, y) :: inn) :: d -> proper al ->
  gen_ccall (5 + n) c (CJax sh f) a = gen_cov_jax c.
Proof.
  intros O Ec Ed Ha E Pa. assert (V : validate sh [] (CJax sh f) a = Ok tt).
  { unfold validate. destruct Ha as [-> | ->]; cbn; now rewrite shape_eqb_refl. }
  destruct (gen_lfo_ok c O) as (EL & _).
  assert (U : gen_ccall (5 + n) c (CJax sh f) a = bind (validate (c_dom c) (c_cod c) (CJax sh f) a) (fun _ => or_else (bind (gen_lfo DPartialNoJax c) (fun L => bind (ccall (4 + n) L (CJax sh f) a) (fun r => Ok (Some r)))) (gen_cov_jax c))) by reflexivity.
  rewrite U, Ed, Ec, V, EL. cbn [bind].
  assert (X : ccall (4 + n) (gsum DPartialNoJax c) (CJax sh f) a = Err NotImplementedError).
  { unfold gsum. rewrite E. cbn [map]. change (4 + n)%nat with (S (S (S (S n)))). rewrite csum_unf.
    rewrite csum_unf, cscaled_unf. assert (HI : In (i, (al, y) :: inn) (c_dict c)) by (rewrite E; now left).
    assert (Es : mi_shape al = sh) by (rewrite <- Ed; apply (proj2 O i _ HI) with (y := y); now left).
    assert (X : ccall (S n) (ODiff (DPartialNoJax al)) (CJax sh f) a = Err NotImplementedError).
    { cbn [ccall cov_diffop_call]. unfold cov_partial_call. cbn [pd_registered]. apply Nat.eqb_neq in Pa. rewrite Pa.
      unfold cov_lindiffop_call, cov_call_no_jax. cbn [is_cov negb d_dom is_partial cov_base_call or_else]. rewrite Es, V. cbn [bind or_else].
      unfold cov_jax. reflexivity. }
    rewrite X. cbn [bind]. rewrite (fold_err0 (fun M => ccall (S (S n)) M (CJax sh f) a) cov_add).
    now rewrite (fold_err0 (fun M => ccall (S (S (S n))) M (CJax sh f) a) cov_add). }
  now rewrite X.
Qed.
Lemma gen_jax_cov n c sh f a : coeffs_ok c -> c_cod c = [] -> c_dom c = sh -> isarg a -> multi_indices proper c -> gen_ccall (5 + n) c (CJax sh f) a = Ok None.
Proof.
  intros O Ec Ed Ha P. destruct (first_terms c O) as (i & al & y & inn & d & E). rewrite (gen_jax_first n c sh f a i al y inn d O Ec Ed Ha E).
  2: { apply (P i ((al, y) :: inn) al y); [rewrite E|]; now left. }
  unfold gen_cov_jax. rewrite (gen_terms_ok c O). cbn [bind].
  match goal with |- context [existsb ?p ?l] => assert (X : existsb p l = false) end.
  { apply not_true_iff_false. intros X. apply existsb_exists in X as (ts & Hts & X). apply existsb_exists in X as (t & Ht & X).
    apply in_map_iff in Hts as ([j jnn] & <- & HI). apply in_map_iff in Ht as ([bl z] & <- & Hy). cbn in X. apply Nat.eqb_eq in X. exact (P j jnn bl z HI Hy X). }
  now rewrite X.
Qed.
Lemma gen_jax_mixed n c sh f a i al y inn d : coeffs_ok c -> c_cod c = [] -> c_dom c = sh -> isarg a -> c_dict c = (i, (al, y) :: inn) :: d -> proper al ->
  (exists i inn a y, In (i, inn) (c_dict c) /\ In (a, y) inn /\ mi_order a = 0%nat) -> gen_ccall (5 + n) c (CJax sh f) a = Err TypeError.
Proof.
  intros O Ec Ed Ha E Pa (j & jnn & bl & z & HJ & Hz & Zb). rewrite (gen_jax_first n c sh f a i al y inn d O Ec Ed Ha E Pa).
  unfold gen_cov_jax. rewrite (gen_terms_ok c O). cbn [bind].
  match goal with |- context [existsb ?p ?l] => assert (X : existsb p l = true) end.
  { apply existsb_exists. exists (map (fun '(a, y) => Term y a j) jnn). split; [apply in_map_iff; exists (j, jnn); now split|].
    apply existsb_exists. exists (Term z bl j). split; [apply in_map_iff; exists (bl, z); now split|]. cbn. now rewrite Zb. }
  now rewrite X.
Qed.

(** ** Stacks *)
Lemma wrap_mod n z : in_range z n -> wrap n z = Z.to_nat (z mod Z.of_nat n).
Proof.
  intros [A B]. unfold wrap. f_equal. destruct (Z.ltb_spec z 0) as [L|L].
  - apply (Z.mod_unique z (Z.of_nat n) (-1)); lia.
  - symmetry. apply Z.mod_small. lia.
Qed.
Lemma wrap_output sh i : Forall2 in_range i sh -> wrap_index sh i = output_at sh i /\ valid_index sh (output_at sh i).
Proof.
  unfold wrap_index, output_at. induction 1 as [|z n i sh H F [IH1 IH2]]; [split; [reflexivity|constructor]|]. cbn [combine map]. rewrite IH1, (wrap_mod n z H).
  split; [reflexivity|]. constructor; [|exact IH2]. destruct H as [A B]. pose proof (Z.mod_pos_bound z (Z.of_nat n)). lia.
Qed.
Lemma pick_ok K sh i : Forall2 in_range i sh -> pick sh (map K (all_indices sh)) i = Ok (K (output_at sh i)).
Proof.
  intros H. destruct (wrap_output sh i H) as [E V]. unfold pick. rewrite (picked_range sh i H). cbn [bind]. rewrite E, nth_error_map, (nth_all sh _ V). reflexivity.
Qed.
Lemma reduce_value {A} (f : A -> result cov) (V : A -> kernel) sh l k :
  (forall y r, In y l -> f y = Ok r -> fam sh r /\ ceval r = V y) -> reduce_calls f l = Ok k ->
  fam sh k /\ ceval k = fun x0 x1 => total (map (fun y => V y x0 x1) l).
Proof.
  intros H. destruct l as [|x l]; [discriminate|]. cbn [reduce_calls]. destruct (f x) as [r|e] eqn:E; [|rewrite (fold_err0 f cov_add e); discriminate].
  destruct (H x r (or_introl eq_refl) E) as [F0 V0]. 
  assert (G : forall l r k W, (forall y r, In y l -> f y = Ok r -> fam sh r /\ ceval r = V y) -> fam sh r -> ceval r = W ->
    fold_left (fun acc y => bind acc (fun a => bind (f y) (cov_add a))) l (Ok r) = Ok k -> fam sh k /\ ceval k = fun x0 x1 => W x0 x1 + total (map (fun y => V y x0 x1) l)).
  { clear. induction l as [|y l IH]; intros r k W H F E Hk.
    - injection Hk as <-. split; [exact F|]. rewrite E. extensionality x0. extensionality x1. cbn. ring.
    - cbn [fold_left bind] in Hk. destruct (f y) as [b|x] eqn:Ey; cbn [bind] in Hk; [|rewrite (fold_err0 f cov_add x) in Hk; discriminate].
      destruct (H y b (or_introl eq_refl) Ey) as [Fb Vb]. destruct (cov_add r b) as [q|x] eqn:Eq; [|rewrite (fold_err0 f cov_add x) in Hk; discriminate].
      destruct (covsum_app sh [r; b] q) as (Fq & _ & Vq); [intros z [<-|[<-|[]]]; now right|exact Eq|].
      apply (IH q k (fun x0 x1 => W x0 x1 + V y x0 x1)) in Hk as [Fk Vk].
      + split; [exact Fk|]. rewrite Vk. extensionality x0. extensionality x1. unfold total. cbn [map fold_right]. ring.
      + intros z r' Hz. apply H. now right.
      + exact Fq.
      + rewrite Vq. extensionality x0. extensionality x1. unfold total. cbn [map fold_right]. rewrite E, Vb. ring. }
  intros Hk. destruct (G l r k (V x) (fun y r Hy => H y r (or_intror Hy)) F0 V0 Hk) as [Fk Vk]. split; [exact Fk|]. now rewrite Vk.
Qed.
(** The operator applied to the components of a stack *)
Definition csum_arg (c : coeffs RF) (a : nat) (K : index -> cov) (x0 x1 : array) : R :=
  match a with O => csem c (fun z i => ceval (K i) z x1) x0 | _ => csem c (fun z i => ceval (K i) x0 z) x1 end.
Lemma csum_arg_eq c a K x0 x1 : csum_arg c a K x0 x1 =
  total (map (fun '(i, inn) => total (map (fun '(al, y) => y * in_arg a (pderiv al) (ceval (K (output_at (c_cod c) i))) x0 x1) inn)) (c_dict c)).
Proof. destruct a; reflexivity. Qed.
Section Stack.
Variables (c : coeffs RF) (insh sh : shape) (K : index -> cov) (a : nat).
Hypothesis O : coeffs_ok c.
Hypothesis Ec : c_cod c = sh.
Hypothesis Ed : c_dom c = insh.
Hypothesis Ns : sh <> [].
Hypothesis Ha : isarg a.
Lemma stack_unf n : gen_stack n c insh sh (map K (all_indices sh)) a a =
  bind (reduce_calls (reduce_calls (term_call n sh (map K (all_indices sh)) a)) (map (fun '(i, inn) => map (fun '(a, y) => Term y a i) inn) (c_dict c))) (fun k => Ok (GOne (Some k))).
Proof.
  unfold gen_stack. destruct (shape_eqb_spec sh []) as [E|_]; [congruence|]. assert (L : (1 <? a)%nat = false) by (destruct Ha as [-> | ->]; reflexivity). rewrite L, Nat.eqb_refl, Ec, Ed, !shape_eqb_refl.
  cbn [negb]. now rewrite (gen_terms_ok c O).
Qed.
Lemma stack_sound n g : (forall i, valid_index sh i -> fam insh (K i)) -> gen_stack n c insh sh (map K (all_indices sh)) a a = Ok g ->
  exists k, g = GOne (Some k) /\ fam insh k /\ forall x0 x1, ceval k x0 x1 = csum_arg c a K x0 x1.
Proof.
  intros F. rewrite stack_unf. intros H. apply bind_ok in H as (k & Hk & [= <-]). exists k. split; [reflexivity|].
  set (V := fun t => fun x0 x1 => t_scalar t * in_arg a (pderiv (t_mi t)) (ceval (K (output_at sh (t_idx t)))) x0 x1).
  eapply (reduce_value _ (fun ts => fun x0 x1 => total (map (fun t => V t x0 x1) ts)) insh) in Hk as [Fk Vk].
  - split; [exact Fk|]. intros x0 x1. rewrite Vk, csum_arg_eq, map_map. apply total_ext. intros [i inn] _. rewrite map_map. apply total_ext. intros [al y] _.
    unfold V. cbn [t_idx t_mi t_scalar]. now rewrite Ec.
  - intros ts r Hts Hr. apply in_map_iff in Hts as ([i inn] & <- & HI). destruct (proj2 O i inn HI) as (_ & R & A). rewrite Ec in R.
    apply (reduce_value _ V insh) with (2 := Hr). intros t q Ht Hq. apply in_map_iff in Ht as ([al y] & <- & Hy).
    unfold term_call in Hq. cbn [t_idx t_mi t_scalar] in Hq. rewrite (pick_ok K sh i R) in Hq. cbn [bind] in Hq. apply bind_ok in Hq as (p & Hp & Hq).
    apply (ccall_sound n insh) in Hp; [|apply F; now apply wrap_output|exact Ha|exact (proj1 (A al y Hy))].
    destruct (scale_app insh a (pderiv al) (ceval (K (output_at sh i))) y p q ltac:(reflexivity) Hp Hq) as [Fq Vq]. split; [exact Fq|]. exact Vq.
Qed.
Lemma stack_exp n (e : index -> expquad) : (forall i, valid_index sh i -> K i = CExp (e i) /\ eq_shape (e i) = insh) ->
  (multi_indices (known_order insh) c -> exists k, gen_stack (2 + n) c insh sh (map K (all_indices sh)) a a = Ok (GOne (Some k))) /\
  (multi_indices (fun al => known_order insh al \/ unknown_order insh al) c -> (exists i inn al y, In (i, inn) (c_dict c) /\ In (al, y) inn /\ unknown_order insh al) ->
    gen_stack (2 + n) c insh sh (map K (all_indices sh)) a a = Err TypeError).
Proof.
  intros E. rewrite stack_unf. set (T := term_call (2 + n) sh (map K (all_indices sh)) a).
  assert (TT : forall i inn al y, In (i, inn) (c_dict c) -> In (al, y) inn -> 
    (known_order insh al -> good T (cgood insh) (Term y al i)) /\ (unknown_order insh al -> T (Term y al i) = Err TypeError)).
  { intros i inn al y HI Hy. destruct (proj2 O i inn HI) as (_ & R & A). rewrite Ec in R. unfold good, T, term_call. cbn [t_idx t_mi t_scalar].
    rewrite (pick_ok K sh i R). cbn [bind]. destruct (E _ (proj2 (wrap_output sh i R))) as [-> Es].
    destruct (exp_term n (e (output_at sh i)) al a Ha) as [G B]; [rewrite Es, <- Ed; exact (proj2 (A al y Hy))|]. rewrite Es in G, B. change (2 + n)%nat with (S (S n)). split; intros H.
    - destruct (G H) as (r & -> & Gr). cbn [bind]. now apply cgood_scale.
    - now rewrite (B H). }
  clearbody T.
  assert (IN : forall i inn, In (i, inn) (c_dict c) ->
    ((forall al y, In (al, y) inn -> known_order insh al) -> good (reduce_calls T) (cgood insh) (map (fun '(a, y) => Term y a i) inn)) /\
    ((forall al y, In (al, y) inn -> known_order insh al \/ unknown_order insh al) -> (exists al y, In (al, y) inn /\ unknown_order insh al) -> reduce_calls T (map (fun '(a, y) => Term y a i) inn) = Err TypeError)).
  { intros i inn HI. destruct (proj2 O i inn HI) as (N & _ & _). assert (TI := fun al y => TT i inn al y HI). clear HI. destruct inn as [|[al0 y0] inn]; [now elim N|].
    assert (G : forall t, In t (map (fun '(a, y) => Term y a i) ((al0, y0) :: inn)) -> exists al y, t = Term y al i /\ In (al, y) ((al0, y0) :: inn)).
    { intros t Ht. apply in_map_iff in Ht as ([al y] & <- & Hy). eauto. }
    unfold good. cbn [map reduce_calls]. split; intros H.
    - apply (reduce_good T cov_add _ (cgood_add insh)). intros t Ht. destruct (G t Ht) as (al & y & -> & Hy). apply TI; [exact Hy|]. exact (H al y Hy).
    - intros (al & y & Hy & U). apply (reduce_bad T cov_add _ TypeError (cgood_add insh)).
      + intros t Ht. destruct (G t Ht) as (bl & z & -> & Hz). destruct (TI bl z Hz) as [G1 G2]. destruct (H bl z Hz); auto.
      + exists (Term y al i). split; [|now apply TI].
        change (In (Term y al i) (map (fun '(a, y) => Term y a i) ((al0, y0) :: inn))). apply in_map_iff. exists (al, y). now split. }
  assert (NE : map (fun '(i, inn) => map (fun '(a, y) => Term y a i) inn) (c_dict c) <> []) by (destruct (first_terms c O) as (i & al & y & inn & d & ->); discriminate).
  split; intros H.
  - assert (H' : forall ts, In ts (map (fun '(i, inn) => map (fun '(a, y) => Term y a i) inn) (c_dict c)) -> good (reduce_calls T) (cgood insh) ts).
    { intros ts Hts. apply in_map_iff in Hts as ([i inn] & <- & HI). apply (IN i inn HI). intros al y Hy. exact (H i inn al y HI Hy). }
    revert NE H'. generalize (map (fun '(i, inn) => map (fun '(a, y) => Term y a i) inn) (c_dict c)). intros [|t ts] NE H'; [congruence|].
    cbn [reduce_calls]. destruct (reduce_good (reduce_calls T) cov_add _ (cgood_add insh) t ts H') as (k & Hk & _). exists k. exact (f_equal (fun r => bind r (fun k => Ok (GOne (Some k)))) Hk).
  - intros (i & inn & al & y & HI & Hy & U).
    assert (D : forall inn : list (mi * R), (forall al y, In (al, y) inn -> known_order insh al \/ unknown_order insh al) ->
       (forall al y, In (al, y) inn -> known_order insh al) \/ exists al y, In (al, y) inn /\ unknown_order insh al).
    { clear. induction inn as [|[al y] inn IH]; intros H; [left; intros ? ? []|]. destruct IH as [IH|(bl & z & Hb & U)]; [intros; eapply H; right; eassumption| |right; exists bl, z; split; [now right|exact U]].
      destruct (H al y (or_introl eq_refl)) as [K|U]; [left|right; exists al, y; split; [now left|exact U]]. intros bl z [[= <- <-]|Hb]; eauto. }
    assert (H' : forall ts, In ts (map (fun '(i, inn) => map (fun '(a, y) => Term y a i) inn) (c_dict c)) -> good (reduce_calls T) (cgood insh) ts \/ reduce_calls T ts = Err TypeError).
    { intros ts Hts. apply in_map_iff in Hts as ([j jnn] & <- & HJ). assert (HH : forall al y, In (al, y) jnn -> known_order insh al \/ unknown_order insh al) by (intros bl z Hz; exact (H j jnn bl z HJ Hz)).
      destruct (IN j jnn HJ) as [G1 G2]. destruct (D jnn HH); auto. }
    assert (X : In (map (fun '(a, y) => Term y a i) inn) (map (fun '(i, inn) => map (fun '(a, y) => Term y a i) inn) (c_dict c))) by (apply in_map_iff; exists (i, inn); now split).
    assert (Y : reduce_calls T (map (fun '(a, y) => Term y a i) inn) = Err TypeError).
    { apply (IN i inn HI); [|eauto]. intros bl z Hz. exact (H i inn bl z HI Hz). }
    revert H' X. generalize (map (fun '(i, inn) => map (fun '(a, y) => Term y a i) inn) (c_dict c)). intros [|t ts] H' X; [destruct X|].
    cbn [reduce_calls]. refine (f_equal (fun r => bind r (fun k => Ok (GOne (Some k)))) (reduce_bad (reduce_calls T) cov_add _ TypeError (cgood_add insh) t ts H' _)). eauto.
Qed.
End Stack.
(** The argument along which nothing is stacked *)
Lemma stack_other n c insh sh l oi a : isarg a -> isarg oi -> a <> oi -> sh <> [] -> c_dom c = insh -> c_cod c = [] ->
  gen_stack n c insh sh l oi a = bind (mapM (fun k => gen_ccall n c k a) l) (fun rs => Ok (GStack sh rs oi)).
Proof.
  intros Ha Ho N Ns Ed Ec. unfold gen_stack. destruct (shape_eqb_spec sh []) as [E|_]; [congruence|]. assert (L : (1 <? a)%nat = false) by (destruct Ha as [-> | ->]; reflexivity). apply Nat.eqb_neq in N.
  rewrite L, N, Ed, Ec, !shape_eqb_refl. reflexivity.
Qed.
