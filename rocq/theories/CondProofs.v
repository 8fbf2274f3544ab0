From mathcomp Require Import all_ssreflect all_algebra.
From Verif Require Import Base Block2Model Block2Spec MatPD Block2Proofs Block2Props NormalModel CondModel CondSpec.
Set Implicit Arguments. Unset Strict Implicit. Unset Printing Implicit Defensive.
Import GRing.Theory Num.Theory.
Local Open Scope ring_scope.
Arguments from_observations : simpl never.
Arguments condition_on : simpl never.

Section P.
Variables (F : realFieldType) (X : Type).
Variable chol : forall n : nat, 'M[F]_n -> 'M[F]_n.
Hypothesis cholP : chol_spec chol.
Variable tri : bool.
Variables (g : gp F X) (Sf : (fn F X -> F) -> Prop) (So : funop F X -> Prop).
Hypothesis ad : admissible (gmean g) (gcov g) Sf So.
Notation m := (gmean g).
Notation k := (gcov g).
Implicit Types (E D : funop F X) (l : fn F X -> F).

Lemma sf_ext l f h : Sf l -> f =1 h -> l f = l h.
Proof. by move=> /(ad_lin ad) [H _ _]; apply: H. Qed.
Lemma k_sym x y : k x y = k y x.
Proof.
pose ls (i : 'I_2) := if i == 0 then (fun f : fn F X => f x) else (fun f => f y).
have H : forall i, Sf (ls i) by move=> i; rewrite /ls; case: ifP => _; apply: ad_eval ad _.
have [S _] := ad_psd ad H; have := congr1 (fun M : 'M_2 => M 0 1) S.
by rewrite !mxE /ls.
Qed.
Lemma sf_sym l1 l2 : Sf l1 -> Sf l2 -> l1 (fun x => l2 (k x)) = l2 (fun x => l1 (k x)).
Proof.
move=> S1 S2; pose ls (i : 'I_2) := if i == 0 then l1 else l2.
have H : forall i, Sf (ls i) by move=> i; rewrite /ls; case: ifP.
have [S _] := ad_psd ad H; have := congr1 (fun M : 'M_2 => M 1 0) S.
by rewrite !mxE /ls.
Qed.
(** Functionals of the two arguments of the prior covariance commute. *)
Lemma swap l1 l2 : Sf l1 -> Sf l2 -> l1 (fun x => l2 (k x)) = l2 (fun y => l1 (fun x => k x y)).
Proof.
move=> S1 S2; rewrite sf_sym //; apply: sf_ext => // y; apply: sf_ext => // x; exact: k_sym.
Qed.

Notation rch := (reached m k Sf So).
Definition okE E := (forall l, Sf l -> Sf (fun f => l (E f))) /\ (forall f, rch f -> rch (E f)).
Lemma okE_at E x : okE E -> Sf (fun f => E f x).
Proof. by move=> [H _]; apply: (H (fun f => f x)); apply: ad_eval ad _. Qed.
Lemma okE_ext E f h : okE E -> f =1 h -> E f =1 E h.
Proof. by move=> H e x; apply: (sf_ext (okE_at x H)). Qed.
Lemma okE_comp E D : okE E -> So D -> okE (fun f => D (E f)).
Proof.
move=> [HE RE] HD; split=> [l Hl|f Hf]; first by apply: (HE (fun f => l (D f))); apply: (ad_comp ad).
by apply: reached_op => //; apply: RE.
Qed.
Definition okL p (L : functl F X p) := forall i, Sf (component L i).
Lemma okL_ext p (L : functl F X p) f h : okL L -> f =1 h -> L f = L h.
Proof. by move=> H e; apply/colP=> i; apply: (sf_ext (H i) e). Qed.
Lemma okL_comp p (L : functl F X p) E : okL L -> okE E -> okL (fun f => L (E f)).
Proof. by move=> HL HE i; apply: (HE.1 (fun f => L f i 0)); apply: HL. Qed.

Lemma prior_cov_sym E x y : okE E -> prior_cov k E x y = E (fun y' => E (fun x' => k x' y') x) y.
Proof. by move=> HE; rewrite /prior_cov (swap (okE_at x HE) (okE_at y HE)). Qed.
(** A functional in the second argument of the transformed covariance. *)
Lemma cov_arg1 l E (k' : X -> fn F X) x : Sf l -> okE E -> (forall x y, k' x y = prior_cov k E x y) ->
  l (k' x) = E (fun x' => l (E (k x'))) x.
Proof.
move=> Hl HE Hk; transitivity (l (E (fun y' => E (fun x' => k x' y') x))).
  by apply: sf_ext => // y; rewrite Hk prior_cov_sym.
by rewrite (swap (okE_at x HE) (HE.1 _ Hl)).
Qed.

(** ** Gram matrices *)
Lemma dgram_semi n (d : data F X n) : okL (d_L d) -> possemidef (d_N d) -> possemidef (dgram k d).
Proof. by move=> HL HN; apply: possemidef_add => //; apply: (ad_psd ad (ls := fun i => component (d_L d) i)). Qed.

Definition xgram p q (L : functl F X p) (M : functl F X q) : 'M[F]_(p, q) := \matrix_(i, j) L (fun x => M (k x) j 0) i 0.
Lemma xgram_T p q (L : functl F X p) (M : functl F X q) : okL L -> okL M -> (xgram L M)^T = xgram M L.
Proof. by move=> HL HM; apply/matrixP=> i j; rewrite !mxE; apply: (sf_sym (HL j) (HM i)). Qed.
Lemma dgramE n (d : data F X n) : dgram k d = xgram (d_L d) (d_L d) + d_N d. Proof. by []. Qed.
Lemma xgram_col p1 p2 q (L1 : functl F X p1) (L2 : functl F X p2) (M : functl F X q) :
  xgram (fun f => col_mx (L1 f) (L2 f)) M = col_mx (xgram L1 M) (xgram L2 M).
Proof.
apply/matrixP=> i j; case: (split_ordP i) => i' ->; rewrite mxE ?col_mxEu ?col_mxEd.
  by rewrite [in RHS]mxE.
by rewrite [in RHS]mxE.
Qed.
Lemma xgram_row p q1 q2 (L : functl F X p) (M1 : functl F X q1) (M2 : functl F X q2) : okL L ->
  xgram L (fun f => col_mx (M1 f) (M2 f)) = row_mx (xgram L M1) (xgram L M2).
Proof.
move=> HL; apply/matrixP=> i j; case: (split_ordP j) => j' ->; rewrite mxE ?row_mxEl ?row_mxEr [in RHS]mxE.
  by apply: (sf_ext (HL i)) => x; rewrite col_mxEu.
by apply: (sf_ext (HL i)) => x; rewrite col_mxEd.
Qed.
Lemma okL_col p q (L1 : functl F X p) (L2 : functl F X q) : okL L1 -> okL L2 -> okL (fun f => col_mx (L1 f) (L2 f)).
Proof.
move=> H1 H2 i; case: (split_ordP i) => i' ->.
  by apply: (ad_same ad (H1 i')) => f; rewrite /component col_mxEu.
by apply: (ad_same ad (H2 i')) => f; rewrite /component col_mxEd.
Qed.
Lemma dgram_stack n p (d : data F X n) (e : data F X p) : okL (d_L d) -> okL (d_L e) ->
  dgram k (stack d e) = block_mx (dgram k d) (xgram (d_L d) (d_L e)) (xgram (d_L e) (d_L d)) (dgram k e).
Proof.
move=> Hd He; rewrite !dgramE /= xgram_col !xgram_row // -[col_mx _ _]/(block_mx _ _ _ _) add_block_mx.
by rewrite !addr0.
Qed.
Lemma semi_block0 n p (A : 'M[F]_n) (B : 'M[F]_p) : possemidef A -> possemidef B -> possemidef (block_mx A 0 0 B).
Proof.
move=> [TA QA] [TB QB]; split; first by rewrite tr_block_mx !trmx0 TA TB.
move=> v; rewrite -[v]vsubmxK /qform tr_col_mx mul_row_block !mulmx0 !add0r !addr0 mul_row_col mxE.
by rewrite addr_ge0 ?QA ?QB.
Qed.
Lemma dcross_stack E n p (d : data F X n) (e : data F X p) x : okE E ->
  dcross k E (stack d e) x = row_mx (dcross k E d x) (dcross k E e x).
Proof.
move=> HE; apply/rowP=> j; case: (split_ordP j) => j' ->; rewrite ?row_mxEl ?row_mxEr !mxE.
  by apply: okE_ext => // y; rewrite col_mxEu.
by apply: okE_ext => // y; rewrite col_mxEd.
Qed.
Lemma dres_stack n p (d : data F X n) (e : data F X p) : dres m (stack d e) = col_mx (dres m d) (dres m e).
Proof. by rewrite /dres /= !opp_col_mx !add_col_mx. Qed.

(** ** What the code computes for one observation *)
Section Obs.
Variables (E : funop F X) (g' : gp F X) (o : obs F X).
Hypothesis (HE : okE E) (Hm : gmean g' =1 E m) (Hk : forall x y, gcov g' x y = prior_cov k E x y).
Hypothesis HL : okL (@o_L _ _ o).
Lemma kLaE x : obs_kLa g' o x = dcross k E (data_of E o) x.
Proof. by apply/rowP=> j; rewrite !mxE; apply: (cov_arg1 (l := component (@o_L _ _ o) j)). Qed.
Lemma obs_gramE : obs_gram g' o = Op (dgram k (data_of E o)) (Flags true true false false).
Proof.
have H : functl_cc (@o_L _ _ o) (functl_cov1 (@o_L _ _ o) (gcov g')) = xgram (fun f => o_L o (E f)) (fun f => o_L o (E f)).
  apply/matrixP=> i j; rewrite !mxE; apply: (sf_ext (HL i)) => x.
  by have /rowP/(_ j) := kLaE x; rewrite /obs_kLa [in RHS]mxE.
rewrite /obs_gram dgramE /= H /noise_covm; by case: (o_b o) => //=; rewrite addr0.
Qed.
Lemma obs_resE : o_Y o - obs_pred_mean g' o = dres m (data_of E o).
Proof.
rewrite /obs_pred_mean /dres /= (okL_ext HL Hm) /noise_meanv; case: (o_b o) => [b|] /=; first by rewrite opprD addrA.
by rewrite subr0.
Qed.
End Obs.

(** ** The state after a history *)
Record inv E (s : cgp F X) (d : data F X (c_dim s)) : Prop := Inv {
  i_E : okE E;
  i_mean : gmean (c_prior s) =1 E m;
  i_cov : forall x y, gcov (c_prior s) x y = prior_cov k E x y;
  i_L : okL (d_L d);
  i_kLas : forall x, c_kLas s x = dcross k E d x;
  i_gram : c_gram s = Op (dgram k d) (Flags true true false false);
  i_solve : forall q (z : 'M[F]_(c_dim s, q)), c_solve s z = Ok (invmx (dgram k d) *m z);
  i_w : c_w s = invmx (dgram k d) *m dres m d }.

Lemma from_inv E g' o : okE E -> gmean g' =1 E m -> (forall x y, gcov g' x y = prior_cov k E x y) ->
  okL (@o_L _ _ o) -> exists s, from_observations g' o = Ok s /\ exists d, inv E d /\
    existT (data F X) (c_dim s) d = existT (data F X) _ (data_of E o).
Proof.
move=> HE Hm Hk HL; rewrite /from_observations (obs_gramE HE Hk HL) (obs_resE Hm HL) /=.
eexists; split; first by reflexivity.
exists (data_of E o); split=> //; split=> //=; first exact: (okL_comp HL HE).
by move=> x; apply: kLaE.
Qed.

Lemma cond_inv E s (d : data F X (c_dim s)) o : inv E d -> okL (@o_L _ _ o) ->
  posdef (dgram k (stack d (data_of E o))) -> exists s', condition_on chol tri s o = Ok s' /\
    exists d', inv E d' /\ existT (data F X) (c_dim s') d' = existT (data F X) _ (stack d (data_of E o)).
Proof.
move=> I HL PG; have [HE Hm Hk HLd Hkl HG Hs Hw] := I; set e := data_of E o in PG *.
have HLe : okL (d_L e) by apply: okL_comp.
have Eprev : functl_cc (@o_L _ _ o) (@c_kLas _ _ s) = xgram (d_L e) (d_L d).
  apply/matrixP=> i j; rewrite !mxE; apply: (sf_ext (HL i)) => x; by rewrite Hkl mxE.
have EG := dgram_stack HLd HLe; rewrite EG in PG.
have PA := posdef_block_ul PG.
have bindE A B (a : A) (f : A -> result B) : bind (Ok a) f = f a by [].
pose M := B2 (Op (dgram k d) (Flags true true false false)) (op_T (Op (xgram (d_L e) (d_L d)) no_flags))
  (op_T (op_T (Op (xgram (d_L e) (d_L d)) no_flags))) (Op (dgram k e) (Flags true true false false)) false
  (Flags true true false false).
rewrite /condition_on HG (obs_gramE HE Hk HL) Eprev [mk_block2 _ _ _ _ _](erefl : _ = Ok M) bindE.
have EM : b2_todense M = dgram k (stack d e) by rewrite EG /b2_todense /= trmxK (xgram_T HLe HLd).
have TM : truthful2 M.
  split=> //; rewrite EM EG; split=> //= _; by case: PG.
have UM : b2_todense M \in unitmx by rewrite EM EG; apply: posdef_unit.
have [z Ez Hz] := schur_update cholP (dres m d) (dres m e) TM (posdef_unit PA) UM.
rewrite Hw (obs_resE Hm HL) Ez bindE; eexists; split; first by reflexivity.
exists (stack d e); split=> //; split=> //=.
- exact: okL_col.
- by move=> x; rewrite Hkl (kLaE HE Hk HL) -dcross_stack.
- by rewrite -EM.
- move=> q z'; have H : f_sym (bfl M) -> f_pd (bfl M) || is_block_diagonal M by [].
  have [y -> Hy] := solve cholP tri z' TM UM H.
  by rewrite -EM -Hy mulKmx.
- by rewrite dres_stack -Hz -EM mulKmx.
Qed.

Lemma appl_gp E D g' : okE E -> So D -> gmean g' =1 E m -> (forall x y, gcov g' x y = prior_cov k E x y) ->
  gmean (funop_gp D g') =1 (fun f => D (E f)) m /\
  (forall x y, gcov (funop_gp D g') x y = prior_cov k (fun f => D (E f)) x y).
Proof.
move=> HE HD Hm Hk; have okD : forall x, Sf (fun f => D f x).
  by move=> x; apply: (ad_comp ad (l := fun f => f x)) => //; apply: ad_eval ad _.
split=> [x|x y] /=; first exact: (sf_ext (okD x) Hm).
rewrite /prior_cov; apply: (sf_ext (okD x)) => x'.
exact: (cov_arg1 (l := fun f => D f y)).
Qed.
Lemma appl_inv E s (d : data F X (c_dim s)) D : inv E d -> So D ->
  exists d', inv (s := funop_cgp D s) (fun f => D (E f)) d' /\ existT (data F X) _ d' = existT (data F X) _ d.
Proof.
move=> I HD; have [HE Hm Hk HLd Hkl HG Hs Hw] := I; exists d; split=> //.
have [Hm' Hk'] := appl_gp HE HD Hm Hk.
have okD : forall x, Sf (fun f => D f x).
  by move=> x; apply: (ad_comp ad (l := fun f => f x)) => //; apply: ad_eval ad _.
split=> //=; first exact: okE_comp.
move=> x; apply/rowP=> j; rewrite !mxE; apply: (sf_ext (okD x)) => x'; by rewrite Hkl mxE.
Qed.

(** ** Histories *)
Definition sgood (sm : summary F X) : Prop := okE (s_op sm) /\
  match s_data sm with Some (existT n d) => okL (d_L d) /\ possemidef (d_N d) | None => True end.
Definition spd (sm : summary F X) : Prop :=
  match s_data sm with Some (existT n d) => posdef (dgram k d) | None => True end.
Definition pinv (p : process F X) (sm : summary F X) : Prop :=
  match p, s_data sm with
  | Plain g', None => [/\ okE (s_op sm), gmean g' =1 s_op sm m & forall x y, gcov g' x y = prior_cov k (s_op sm) x y]
  | Posterior s, Some dd => exists d, inv (s := s) (s_op sm) d /\ existT (data F X) _ d = dd
  | _, _ => False
  end.
Lemma sgood_step sm e : sgood sm -> good_event Sf So e -> sgood (s_step sm e).
Proof.
case: sm => dd E [/= HE Hd]; case: e => [o [HL HN]|D HD] /=; last by split=> //=; apply: okE_comp.
split=> //=; case: dd Hd => [[n d] [HLd HNd]|_] /=; split=> //.
- by apply: okL_col => //; apply: okL_comp.
- exact: semi_block0.
- exact: okL_comp.
Qed.
Lemma sgood_steps es sm : sgood sm -> good_events Sf So es -> sgood (foldl (@s_step _ _) sm es).
Proof. by elim: es sm => [|e es IH] sm //= H [He Hes]; apply: IH => //; apply: sgood_step. Qed.
Lemma sgood_pd sm : sgood sm -> spec_gram_unit g sm -> spd sm.
Proof.
case: sm => [[[n d]|] E] [/= HE Hd] //; rewrite /spec_gram_unit /spd /= => U; case: Hd => HL HN.
by apply: possemidef_unit_posdef => //; apply: dgram_semi.
Qed.
Lemma spd_back es sm : sgood sm -> good_events Sf So es -> spd (foldl (@s_step _ _) sm es) -> spd sm.
Proof.
elim: es sm => [|e es IH] sm //= H [He Hes] P; have H' := sgood_step H He; have {IH P} := IH _ H' Hes P.
case: sm H H' => [[[n d]|] E] // [/= HE [HL HN]]; case: e He => [o [HLo HNo]|D HD] //= _.
by rewrite /spd /= dgram_stack //; [exact: posdef_block_ul | exact: okL_comp].
Qed.
Lemma step_inv p sm e : pinv p sm -> sgood sm -> good_event Sf So e -> spd (s_step sm e) ->
  exists p', step chol tri p e = Ok p' /\ pinv p' (s_step sm e).
Proof.
case: sm => [dd E]; case: p => [g'|s]; rewrite /pinv /sgood /=.
  case: dd => // -[HE Hm Hk] _; case: e => [o [HL HN] _|D HD _].
    have [s [Es [d [I Ed]]]] := from_inv HE Hm Hk HL; exists (Posterior s); split=> /=.
      by change (bind (from_observations g' o) (fun s => Ok (Posterior s)) = Ok (Posterior s)); rewrite Es.
    by exists d; split.
  eexists; split; first by reflexivity.
  by have [H1 H2] := appl_gp HE HD Hm Hk; split=> //=; apply: okE_comp.
case: dd => // dd [d [I <-]] [_ [HL HN]]; case: e => [o [HLo HNo] P|D HD _].
  have [s' [Es [d' [I' Ed']]]] := cond_inv I HLo P; exists (Posterior s'); split=> /=.
    by change (bind (condition_on chol tri s o) (fun s => Ok (Posterior s)) = Ok (Posterior s')); rewrite Es.
  by exists d'; split.
eexists; split; first by reflexivity.
by have [d' [I' Ed]] := appl_inv I HD; exists d'; split.
Qed.
Lemma run_inv es p sm : pinv p sm -> sgood sm -> good_events Sf So es -> spd (foldl (@s_step _ _) sm es) ->
  exists p', run chol tri p es = Ok p' /\ pinv p' (foldl (@s_step _ _) sm es).
Proof.
elim: es p sm => [|e es IH] p sm /= I H; first by exists p.
move=> [He Hes] P; have H' := sgood_step H He; have P' := spd_back H' Hes P.
by have [p' [-> I']] := step_inv I H He P'; apply: IH.
Qed.
Lemma start_inv : pinv (Plain g) (s_start F X).
Proof. by split=> //; split=> // l Hl; apply: (ad_same ad Hl). Qed.
Lemma start_good : sgood (s_start F X).
Proof. by split=> //; split=> // l Hl; apply: (ad_same ad Hl). Qed.

Lemma pinv_mean p sm x : pinv p sm -> p_mean p x = spec_mean g sm x.
Proof.
case: sm => [dd E]; case: p => [g'|s]; rewrite /pinv /spec_mean /=; first by case: dd => // -[_ H _].
case: dd => // dd [d [[HE Hm Hk HLd Hkl HG Hs Hw] <-]].
by rewrite /c_mean Hm Hkl Hw mulmxA.
Qed.
Lemma pinv_cov p sm x y : pinv p sm -> p_cov p x y = Ok (spec_cov g sm x (odflt x y)).
Proof.
case: sm => [dd E]; case: p => [g'|s]; rewrite /pinv /spec_cov /=; first by case: dd => // -[_ _ H]; rewrite H.
case: dd => // dd [d [[HE Hm Hk HLd Hkl HG Hs Hw] <-]].
rewrite /c_cov Hk Hs /=; congr Ok; rewrite /post_cov mulmxA; congr (_ - _).
by case: y => [y|] /=; rewrite !Hkl.
Qed.
Lemma run_spec es : good_events Sf So es -> spec_gram_unit g (summarise es) ->
  exists p, [/\ run chol tri (Plain g) es = Ok p, pinv p (summarise es),
    forall x, p_mean p x = spec_mean g (summarise es) x &
    forall x y, p_cov p x y = Ok (spec_cov g (summarise es) x (odflt x y))].
Proof.
move=> He U; have G := sgood_steps start_good He; have P := sgood_pd G U.
have [p [Hr I]] := run_inv start_inv start_good He P.
by exists p; split=> // [x|x y]; [apply: pinv_mean | apply: pinv_cov].
Qed.
End P.
