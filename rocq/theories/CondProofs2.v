From mathcomp Require Import all_ssreflect all_algebra.
From Coq Require Import Permutation.
From Verif Require Import Base Block2Model Block2Spec MatPD Block2Proofs Block2Props NormalModel NormalSpec NormalProofs
  CondModel CondSpec CondProofs.
Set Implicit Arguments. Unset Strict Implicit. Unset Printing Implicit Defensive.
Import GRing.Theory Num.Theory.
Local Open Scope ring_scope.

Section Lin.
Variables (F : realFieldType) (X : Type) (m : fn F X) (k : X -> fn F X) (Sf : (fn F X -> F) -> Prop) (So : funop F X -> Prop).
Notation rch := (reached m k Sf So).
Implicit Types (l : fn F X -> F).
Lemma reached_sum n (f : 'I_n -> fn F X) : (forall j, rch (f j)) -> rch (fun x => \sum_j f j x).
Proof.
elim: n f => [|n IH] f H.
  by apply: (reached_ext (reached_scale 0 (reached_mean m k Sf So))) => x; rewrite big_ord0 mul0r.
apply: (reached_ext (reached_add (H ord0) (IH _ (fun j => H (lift ord0 j))))) => x; by rewrite big_ord_recl.
Qed.
Lemma lin_sum l n (f : 'I_n -> fn F X) : linear_on rch l -> (forall j, rch (f j)) -> l (fun x => \sum_j f j x) = \sum_j l (f j).
Proof.
move=> [He Ha Hs]; elim: n f => [|n IH] f H.
  rewrite big_ord0 (He _ (fun x => 0 * m x)); last by move=> x; rewrite big_ord0 mul0r.
  by rewrite (Hs 0 m) ?mul0r //; apply: reached_mean.
rewrite big_ord_recl -IH // -Ha //; first by apply: He => x; rewrite big_ord_recl.
by apply: (reached_sum (f := fun j => f (lift ord0 j))) => j; apply: H.
Qed.
Lemma lin_affine l n (f : fn F X) (c : X -> 'rV[F]_n) (w : 'cV[F]_n) : linear_on rch l ->
  rch f -> (forall j, rch (fun x => c x 0 j)) ->
  l (fun x => f x + (c x *m w) 0 0) = l f + \sum_j l (fun x => c x 0 j) * w j 0.
Proof.
move=> Hl Hf Hc; have [He Ha Hs] := Hl.
have R : rch (fun x => \sum_j w j 0 * c x 0 j).
  by apply: (reached_sum (f := fun j x => w j 0 * c x 0 j)) => j; apply: (reached_scale _ (Hc j)).
have E : (fun x => \sum_j w j 0 * c x 0 j) =1 (fun x => (c x *m w) 0 0).
  by move=> x; rewrite mxE; apply: eq_bigr => j _; rewrite mulrC.
rewrite Ha //; last exact: (reached_ext R E).
congr (_ + _); transitivity (l (fun x => \sum_j w j 0 * c x 0 j)); first exact/esym/He.
rewrite (lin_sum (f := fun j x => w j 0 * c x 0 j)) //; last by move=> j; apply: (reached_scale _ (Hc j)).
by apply: eq_bigr => j _; rewrite Hs // mulrC.
Qed.
End Lin.

Section P.
Variables (F : realFieldType) (X : Type).
Variable chol : forall n : nat, 'M[F]_n -> 'M[F]_n.
Hypothesis cholP : chol_spec chol.
Variable tri : bool.
Variables (g : gp F X) (Sf : (fn F X -> F) -> Prop) (So : funop F X -> Prop).
Hypothesis ad : admissible (gmean g) (gcov g) Sf So.
Notation m := (gmean g).
Notation k := (gcov g).
Implicit Types (E D : funop F X) (l : fn F X -> F).
Notation okE := (okE g Sf So).
Notation okL := (okL Sf).

(** ** Functionals of the posterior *)
Lemma entry_sandwich p q n (A : 'M[F]_(p, n)) (G : 'M[F]_n) (B : 'M[F]_(q, n)) i j :
  (A *m G *m B^T) i j = (row i A *m G *m (row j B)^T) 0 0.
Proof. by rewrite -row_mul tr_row !mxE; apply: eq_bigr => r _; rewrite !mxE. Qed.
Lemma entry_times p n (A : 'M[F]_(p, n)) (w : 'cV[F]_n) i : (A *m w) i 0 = (row i A *m w) 0 0.
Proof. by rewrite -row_mul [in RHS]mxE. Qed.
Lemma mxBE p q (A B : 'M[F]_(p, q)) i j : (A - B) i j = A i j - B i j.
Proof. by rewrite !mxE. Qed.
Lemma negm n (a : 'rV[F]_n) (w : 'cV[F]_n) : (a *m - w) 0 0 = - (a *m w) 0 0.
Proof. by rewrite mulmxN mxE. Qed.
Section Post.
Variables (E : funop F X) (n : nat) (d : data F X n).
Hypothesis (HE : okE E) (HLd : okL (d_L d)) (PG : posdef (dgram k d)).
Notation rch := (reached m k Sf So).
Lemma dcross_reached j : rch (fun x => dcross k E d x 0 j).
Proof.
have [_ RE] := HE; apply: (reached_ext (RE _ (reached_cov m k So (HLd j)))) => x; by rewrite mxE.
Qed.
Lemma prior_reached x : rch (prior_cov k E x).
Proof.
have [_ RE] := HE; apply: (reached_ext (RE _ (reached_cov m k So (okE_at ad x HE)))) => y.
rewrite (prior_cov_sym ad x y HE); apply: (okE_ext ad HE) => y'; apply: (okE_ext ad HE) => x'; exact: (k_sym ad).
Qed.
Lemma two_reached l : Sf l -> rch (E (fun x' => l (E (k x')))).
Proof. by move=> Hl; have [SE RE] := HE; apply: RE; apply: (reached_cov m k So (SE _ Hl)). Qed.
Notation G := (dgram k d).
Definition lc l : 'rV[F]_n := \row_j l (fun x => dcross k E d x 0 j).
Lemma sum_lc l (w : 'cV[F]_n) : \sum_j l (fun x => dcross k E d x 0 j) * w j 0 = (lc l *m w) 0 0.
Proof. by rewrite [in RHS]mxE; apply: eq_bigr => j _; rewrite [lc _ _ _]mxE. Qed.
Lemma SG : (invmx G)^T = invmx G.
Proof. by rewrite trmx_inv; case: PG => ->. Qed.
Lemma l_mean l : Sf l -> l (post_mean m k E d) = l (E m) + (lc l *m invmx G *m dres m d) 0 0.
Proof.
move=> Hl; transitivity (l (fun x => E m x + (dcross k E d x *m (invmx G *m dres m d)) 0 0)).
  by apply: (sf_ext ad Hl) => x; rewrite /post_mean mulmxA.
rewrite (lin_affine _ (ad_lin ad Hl)); [|by apply: HE.2; apply: reached_mean|exact: dcross_reached].
by rewrite sum_lc mulmxA.
Qed.
Lemma quad_sym (a b : 'rV[F]_n) : (a *m invmx G *m b^T) 0 0 = (b *m invmx G *m a^T) 0 0.
Proof. by rewrite -[in LHS](trmxK (a *m _ *m _)) [in LHS]mxE !trmx_mul trmxK SG mulmxA. Qed.
Lemma l_cov1 l x : Sf l -> l (post_cov k E d x) = E (fun x' => l (E (k x'))) x - (dcross k E d x *m invmx G *m (lc l)^T) 0 0.
Proof.
move=> Hl; transitivity (l (fun y => prior_cov k E x y + (dcross k E d y *m (- (invmx G *m (dcross k E d x)^T))) 0 0)).
  by apply: (sf_ext ad Hl) => y; rewrite /post_cov quad_sym negm mulmxA.
rewrite (lin_affine _ (ad_lin ad Hl)); [|exact: prior_reached|exact: dcross_reached]; congr (_ + _).
  exact: (cov_arg1 ad x Hl HE).
by rewrite sum_lc negm quad_sym mulmxA.
Qed.
Lemma l_cov2 l1 l2 : Sf l1 -> Sf l2 -> l1 (fun x => l2 (post_cov k E d x)) =
  l1 (E (fun x' => l2 (E (k x')))) - (lc l1 *m invmx G *m (lc l2)^T) 0 0.
Proof.
move=> H1 H2; transitivity (l1 (fun x => E (fun x' => l2 (E (k x'))) x + (dcross k E d x *m (- (invmx G *m (lc l2)^T))) 0 0)).
  by apply: (sf_ext ad H1) => x; rewrite l_cov1 // negm mulmxA.
rewrite (lin_affine _ (ad_lin ad H1)); [|exact: two_reached|exact: dcross_reached]; congr (_ + _).
by rewrite sum_lc negm mulmxA.
Qed.
Definition lcross p (L : functl F X p) : 'M[F]_(p, n) := \matrix_(i, j) L (fun x => dcross k E d x 0 j) i 0.
Lemma row_lcross p (L : functl F X p) i : row i (lcross L) = lc (component L i).
Proof. by apply/rowP=> j; rewrite !mxE. Qed.
Lemma L_post_mean p (L : functl F X p) : okL L ->
  L (post_mean m k E d) = L (E m) + lcross L *m invmx G *m dres m d.
Proof.
move=> H; apply/colP=> i; rewrite [in RHS]mxE -mulmxA entry_times row_lcross mulmxA; exact: (l_mean (H i)).
Qed.
Lemma L_post_cov p (L : functl F X p) : okL L ->
  \matrix_(i, j) L (fun x => L (post_cov k E d x) j 0) i 0 =
  xgram g (fun f => L (E f)) (fun f => L (E f)) - lcross L *m invmx G *m (lcross L)^T.
Proof.
move=> H; apply/matrixP=> i j; rewrite mxE mxBE [xgram _ _ _ _ _]mxE entry_sandwich !row_lcross.
exact: (l_cov2 (H i) (H j)).
Qed.
End Post.

(** The data read off a functional of the conditioned process. *)
Lemma functl_cgpE E s (d : data F X (c_dim s)) p (L : functl F X p) : inv g Sf So E d -> okL L ->
  functl_cgp L s = Normal (L (E m) + lcross E d L *m invmx (dgram k d) *m dres m d)
    (xgram g (fun f => L (E f)) (fun f => L (E f)) - lcross E d L *m invmx (dgram k d) *m (lcross E d L)^T).
Proof.
move=> [HE Hm Hk HLd Hkl HG Hs Hw] H.
have EC : functl_cc L (@c_kLas _ _ s) = lcross E d L.
  by apply/matrixP=> i j; rewrite !mxE; apply: (sf_ext ad (H i)) => x; rewrite Hkl.
have EK : functl_cc L (functl_cov1 L (gcov (c_prior s))) = xgram g (fun f => L (E f)) (fun f => L (E f)).
  apply/matrixP=> i j; rewrite !mxE; apply: (sf_ext ad (H i)) => x; rewrite mxE.
  exact: (cov_arg1 ad x (H j) HE Hk).
by rewrite /functl_cgp EC HG Hw /= EK (okL_ext ad H Hm) mulmxA.
Qed.
Lemma functl_gpE E g' p (L : functl F X p) : okE E -> gmean g' =1 E m -> (forall x y, gcov g' x y = prior_cov k E x y) ->
  okL L -> functl_gp L g' = Normal (L (E m)) (xgram g (fun f => L (E f)) (fun f => L (E f))).
Proof.
move=> HE Hm Hk H; rewrite /functl_gp (okL_ext ad H Hm); congr Normal.
apply/matrixP=> i j; rewrite !mxE; apply: (sf_ext ad (H i)) => x; rewrite mxE.
exact: (cov_arg1 ad x (H j) HE Hk).
Qed.

Lemma functional_commutes pr sm p (L : functl F X p) (c : X -> X -> F) : pinv g Sf So pr sm -> spd g sm -> okL L ->
  (forall x y, p_cov pr x (Some y) = Ok (c x y)) ->
  p_functl L pr = Normal (L (p_mean pr)) (\matrix_(i, j) L (fun x => L (c x) j 0) i 0).
Proof.
move=> I P H Hc.
have Em : L (p_mean pr) = L (spec_mean g sm) by apply: (okL_ext ad H) => x; apply: pinv_mean I.
have Ec : \matrix_(i, j) L (fun x => L (c x) j 0) i 0 = \matrix_(i, j) L (fun x => L (spec_cov g sm x) j 0) i 0.
  apply/matrixP=> i j; rewrite !mxE; apply: (sf_ext ad (H i)) => x; apply: (sf_ext ad (H j)) => y.
  by have := pinv_cov x (Some y) I; rewrite Hc => -[].
rewrite Em Ec; case: sm I P {Em Ec Hc} => [dd E]; rewrite /pinv /spd; case: pr => [g'|s] /=.
  case: dd => // -[HE Hm Hk] _; rewrite (functl_gpE HE Hm Hk H); congr Normal.
  by apply/matrixP=> i j; rewrite !mxE; apply: (sf_ext ad (H i)) => x; apply/esym/(cov_arg1 ad x (H j) HE).
case: dd => // dd [d [I <-]] PG; rewrite (functl_cgpE I H); case: I => HE Hm Hk HLd Hkl HG Hs Hw.
rewrite /spec_mean /spec_cov /= L_post_mean //; congr Normal; exact/esym/L_post_cov.
Qed.

(** Operators applied to the posterior act on its mean and covariance
    functions. *)
Lemma spec_appl sm D x y : sgood g Sf So sm -> spd g sm -> So D ->
  spec_mean g (s_step sm (Appl D)) x = D (spec_mean g sm) x /\
  spec_cov g (s_step sm (Appl D)) x y = D (fun x' => D (spec_cov g sm x') y) x.
Proof.
move=> G P HD.
have okD z : Sf (fun f => D f z) by apply: (ad_comp ad (l := fun f => f z)) => //; apply: ad_eval ad _.
case: sm G P => [[[n d]|] E] [HE HL] P; rewrite /spec_mean /spec_cov /=; rewrite /= in HE.
  have ED z : dcross k (fun f => D (E f)) d z = lc E d (fun f => D f z).
    by apply/rowP=> j; rewrite !mxE; apply: (sf_ext ad (okD z)) => z'; rewrite mxE.
  split; first by rewrite (l_mean HE HL.1 (okD x)) /post_mean ED.
  by rewrite (l_cov2 HE HL.1 P (okD x) (okD y)) /post_cov !ED.
split=> //; rewrite /prior_cov; apply: (sf_ext ad (okD x)) => x'.
by apply/esym/(cov_arg1 ad x' (l := fun f => D f y) (k' := prior_cov k E) (okD y) HE).
Qed.
Lemma operator_commutes pr sm D pr' (c : X -> X -> F) : pinv g Sf So pr sm -> sgood g Sf So sm -> spd g sm -> So D ->
  (forall x y, p_cov pr x (Some y) = Ok (c x y)) -> step chol tri pr (Appl D) = Ok pr' ->
  (forall x, p_mean pr' x = D (p_mean pr) x) /\
  (forall x y, p_cov pr' x (Some y) = Ok (D (fun x' => D (c x') y) x)).
Proof.
move=> I G P HD Hc Hs.
have [pr2 [Hs2 I2]] := step_inv cholP tri (e := Appl D) ad I G HD P.
have {Hs2} E2 : pr2 = pr' by move: Hs2; rewrite Hs => -[].
rewrite {pr2}E2 in I2.
have okD x : Sf (fun f => D f x) by apply: (ad_comp ad (l := fun f => f x)) => //; apply: ad_eval ad _.
split=> [x|x y].
  rewrite (pinv_mean x I2); have [-> _] := spec_appl x x G P HD.
  by apply: (sf_ext ad (okD x)) => z; rewrite (pinv_mean z I).
rewrite (pinv_cov x (Some y) I2) /=; have [_ ->] := spec_appl x y G P HD; congr Ok.
apply: (sf_ext ad (okD x)) => x'; apply: (sf_ext ad (okD y)) => y'.
by have := pinv_cov x' (Some y') I; rewrite Hc => -[].
Qed.

(** ** Positivity *)
Definition query q (E : funop F X) (xs : 'I_q -> X) : data F X q := Data (fun f => \col_i E f (xs i)) 0 0 0.
Lemma okL_query q E (xs : 'I_q -> X) : okE E -> okL (d_L (query E xs)).
Proof. by move=> HE i; apply: (ad_same ad (okE_at ad (xs i) HE)) => f; rewrite /component mxE. Qed.
Definition spec_covmx (sm : summary F X) q (xs : 'I_q -> X) : 'M[F]_q := \matrix_(i, j) spec_cov g sm (xs i) (xs j).
Definition prior_covmx (sm : summary F X) q (xs : 'I_q -> X) : 'M[F]_q := \matrix_(i, j) prior_cov k (s_op sm) (xs i) (xs j).
Lemma prior_covmxE sm q (xs : 'I_q -> X) : okE (s_op sm) -> prior_covmx sm xs = dgram k (query (s_op sm) xs).
Proof.
move=> HE; rewrite /dgram /= addr0; apply/matrixP=> i j; rewrite !mxE /prior_cov.
by apply: (okE_ext ad HE) => x; rewrite mxE.
Qed.
Definition qcross E n (d : data F X n) q (xs : 'I_q -> X) : 'M[F]_(q, n) := \matrix_(i, j) dcross k E d (xs i) 0 j.
Lemma qcrossE E n (d : data F X n) q (xs : 'I_q -> X) : qcross E d xs = xgram g (d_L (query E xs)) (d_L d).
Proof. by apply/matrixP=> i j; rewrite !mxE. Qed.
Lemma spec_covmxE E n (d : data F X n) q (xs : 'I_q -> X) : okE E ->
  spec_covmx (Summary (Some (existT (data F X) _ d)) E) xs =
    dgram k (query E xs) - qcross E d xs *m invmx (dgram k d) *m (qcross E d xs)^T.
Proof.
move=> HE; rewrite -(@prior_covmxE (Summary None E)) //; apply/matrixP=> i j.
rewrite mxE mxBE entry_sandwich [prior_covmx _ _ _ _]mxE /spec_cov /= /post_cov.
have R a : row a (qcross E d xs) = dcross k E d (xs a) by apply/rowP=> b; rewrite !mxE.
by rewrite !R.
Qed.
Lemma query_semi q E (xs : 'I_q -> X) : okE E -> possemidef (dgram k (query E xs)).
Proof. by move=> HE; apply: (dgram_semi ad); [apply: okL_query | apply: possemidef0]. Qed.
Lemma spec_covmx_psd sm q (xs : 'I_q -> X) : sgood g Sf So sm -> spd g sm -> possemidef (spec_covmx sm xs).
Proof.
case: sm => [[[n d]|] E] [/= HE HL] P; last first.
  rewrite -[spec_covmx _ _]/(prior_covmx (Summary None E) xs) prior_covmxE //; exact: query_semi.
have [HLd HN] := HL; rewrite /spd /= in P; rewrite spec_covmxE // qcrossE.
have Hq := okL_query xs HE.
have := @dgram_semi _ _ _ _ _ ad _ (stack d (query E xs)) (okL_col ad HLd Hq) (semi_block0 HN (possemidef0 F q)).
rewrite (dgram_stack ad HLd Hq) -(xgram_T ad Hq HLd) => H.
have {}H : possemidef (block_mx (dgram k d) (xgram g (d_L (query E xs)) (d_L d))^T
   ((xgram g (d_L (query E xs)) (d_L d))^T)^T (dgram k (query E xs))) by rewrite trmxK.
by have := possemidef_schur (posdef_unit P) H; rewrite /schur_of trmxK.
Qed.
Lemma spec_covmx_prior sm q (xs : 'I_q -> X) : sgood g Sf So sm -> spd g sm -> loewner (spec_covmx sm xs) (prior_covmx sm xs).
Proof.
case: sm => [[[n d]|] E] [/= HE HL] P; last first.
  by rewrite /loewner -[spec_covmx _ _]/(prior_covmx (Summary None E) xs) subrr; apply: possemidef0.
rewrite /spd /= in P; rewrite spec_covmxE // /loewner (@prior_covmxE (Summary _ E)) // opprB addrCA subrr addr0.
rewrite -{1}[qcross E d xs]trmxK; apply: possemidef_congr; apply: posdef_semi; exact: posdef_inv.
Qed.
Lemma loewner_trans n (A B C : 'M[F]_n) : loewner A B -> loewner B C -> loewner A C.
Proof. by move=> H1 H2; have := possemidef_add H2 H1; rewrite /loewner addrA subrK. Qed.
Lemma loewner_refl n (A : 'M[F]_n) : loewner A A.
Proof. by rewrite /loewner subrr; apply: possemidef0. Qed.
(** One more observation. *)
Lemma spec_covmx_step sm o q (xs : 'I_q -> X) : sgood g Sf So sm -> good_event Sf So (Cond o) ->
  spd g (s_step sm (Cond o)) -> loewner (spec_covmx (s_step sm (Cond o)) xs) (spec_covmx sm xs).
Proof.
move=> Gs Ho P; have Gs' := sgood_step ad Gs Ho; case: Ho => HLo HNo.
case: sm Gs Gs' P => [[[n d]|] E] [/= HE HL] Gs' P; last exact: (spec_covmx_prior xs Gs' P).
have [HLd HN] := HL; rewrite /spd /= in P; rewrite /s_step /= !spec_covmxE //.
set e := data_of E o in P *; have HLe : okL (d_L e) by exact: (okL_comp HLo HE).
have EG := dgram_stack ad HLd HLe.
have PG : posdef (block_mx (dgram k d) (xgram g (d_L d) (d_L e)) (xgram g (d_L d) (d_L e))^T (dgram k e)).
  by rewrite (xgram_T ad HLd HLe) -EG.
have PA := posdef_block_ul PG; have PS := posdef_schur PG; have [U US] := (posdef_unit PA, posdef_unit PS).
have UG := posdef_unit P; rewrite EG -(xgram_T ad HLd HLe) in UG *.
set B := xgram g (d_L d) (d_L e) in PG PS US UG *.
have EC : qcross E (stack d e) xs = row_mx (qcross E d xs) (qcross E e xs).
  apply/matrixP=> i j; rewrite mxE (dcross_stack ad _ _ _ HE).
  case: (split_ordP j) => j' ->; first by rewrite !row_mxEl [in RHS]mxE.
  by rewrite !row_mxEr [in RHS]mxE.
rewrite EC /loewner opprB addrC addrA subrK tr_row_mx -mulmxA block_inv_col //.
move: PS US; rewrite /schur_of; set S := dgram k e - _ => PS US.
set C1 := qcross E d xs; set C2 := qcross E e xs; set A := invmx (dgram k d).
have SA : A^T = A by rewrite /A trmx_inv; case: PA => ->.
rewrite mul_row_col.
set R := C2^T - B^T *m A *m C1^T.
have ER : R^T = C2 - C1 *m A *m B by rewrite /R linearB /= !trmx_mul !trmxK SA mulmxA.
clearbody R; have -> : C1 *m (A *m (C1^T - B *m (invmx S *m R))) + C2 *m (invmx S *m R) - C1 *m A *m C1^T = R^T *m invmx S *m R.
  rewrite ER.
  have aux (V : zmodType) (a b c : V) : a - b + c - a = c - b by rewrite addrC addrA addKr addrC.
  by rewrite !mulmxBl 2!mulmxBr !mulmxA aux.
by apply: possemidef_congr; apply: posdef_semi; apply: posdef_inv.
Qed.
Lemma spec_covmx_steps os sm q (xs : 'I_q -> X) : sgood g Sf So sm -> good_events Sf So [seq Cond o | o <- os] ->
  spd g (foldl (@s_step _ _) sm [seq Cond o | o <- os]) ->
  loewner (spec_covmx (foldl (@s_step _ _) sm [seq Cond o | o <- os]) xs) (spec_covmx sm xs).
Proof.
elim: os sm => [|o os IH] sm G /=; first by move=> _ _; apply: loewner_refl.
move=> [Ho Hos] P; have G' := sgood_step (e := Cond o) ad G Ho; have P' := spd_back ad G' Hos P.
by apply: loewner_trans (IH _ G' Hos P) _; apply: spec_covmx_step.
Qed.
End P.
