(** Which functionals can be built, and on which functions they return. *)
From Coq Require Import List Reals Lra Lia Bool Arith FunctionalExtensionality.
From Coquelicot Require Import Coquelicot.
From Verif Require Import Base NdArray NdData BlockModel CovModel CrossModel CrossProofs CrossFun PolyClassModel PolyCalc FunExprModel FunExprProofs
  DiffopModel DiffopSpec LfoModel LfoSpec LfoSmooth LfoProofs LfoSound LfoTotal LfoAlg FunctlModel FunctlSpec FunctlProofs FunctlAlg.
Import ListNotations.
Open Scope R_scope.

Lemma mk_evalf_inv dirac dom cod (X : nd RF) e : mk_evalf dirac dom cod X = Ok e ->
  e = mkevalf dirac dom cod X /\ nshape X = ev_batch e ++ dom.
Proof.
  unfold mk_evalf. destruct (shape_eqb_spec (nshape X) (firstn (length (nshape X) - length dom) (nshape X) ++ dom)) as [E|]; [|discriminate].
  intros [= <-]. split; [reflexivity|exact E].
Qed.
Lemma fbuild_typed e : forall L, fbuild e = Ok L -> fleaves e -> fty e (l_in L) (l_out L).
Proof.
  assert (K : forall e i o L, fty e i o -> fbuild e = Ok L -> lwf L).
  { intros e' i o L T H. destruct (fbuild_ok e' i o T) as (L' & HL & W & _). congruence. }
  assert (V : forall M P, obuild M = Ok P -> oty M (o_in P) (o_out P) -> wfo P).
  { intros M P H T. destruct (omeaning_value _ _ _ T) as (P' & HP & W & _). congruence. }
  induction e as [dom cod X|dom cod X|a b cod|dom cod out act|s e IH|e IH|e1 IH1 e2 IH2|e1 IH1 e2 IH2|A e IH|e IH M|cod M X]; intros L H D; cbn [fbuild] in H; cbn [fleaves] in D.
  - apply bind_ok in H as (ev & Hev & [= <-]). apply mk_evalf_inv in Hev as (-> & E). cbn [l_in l_out ev_dom ev_cod ev_out ev_dirac]. now apply ft_dirac.
  - apply bind_ok in H as (ev & Hev & [= <-]). apply mk_evalf_inv in Hev as (-> & E). cbn [l_in l_out ev_dom ev_cod ev_out ev_dirac]. now apply ft_eval.
  - injection H as <-. constructor.
  - injection H as <-. now constructor.
  - apply bind_ok in H as (M & HM & [= <-]). specialize (IH M HM D). destruct (l_scale_ok s M (K _ _ _ _ IH HM)) as (_ & -> & -> & _). now constructor.
  - apply bind_ok in H as (M & HM & [= <-]). specialize (IH M HM D). unfold l_neg. destruct (l_scale_ok (-1) M (K _ _ _ _ IH HM)) as (_ & -> & -> & _). now constructor.
  - apply bind_ok in H as (M & HM & H). apply bind_ok in H as (N & HN & H). destruct D as [D1 D2]. specialize (IH1 M HM D1). specialize (IH2 N HN D2).
    unfold l_add in H. destruct (mk_lsum_inv _ _ H) as (L0 & Ms & [= <- <-] & -> & Hs). destruct (Hs N (or_intror (or_introl eq_refl))) as [Ei Eo].
    cbn [l_in l_out]. rewrite Ei, Eo in IH2. now constructor.
  - apply bind_ok in H as (M & HM & H). apply bind_ok in H as (N & HN & H). destruct D as [D1 D2]. specialize (IH1 M HM D1). specialize (IH2 N HN D2).
    unfold l_sub, l_add in H. destruct (mk_lsum_inv _ _ H) as (L0 & Ms & [= <- <-] & -> & Hs). destruct (Hs (l_neg N) (or_intror (or_introl eq_refl))) as [Ei Eo].
    unfold l_neg in Ei, Eo. destruct (l_scale_ok (-1) N (K _ _ _ _ IH2 HN)) as (_ & Ei' & Eo' & _). rewrite Ei' in Ei. rewrite Eo' in Eo.
    cbn [l_in l_out]. rewrite Ei, Eo in IH2. now constructor.
  - apply bind_ok in H as (M & HM & H). specialize (IH M HM D). assert (W := K _ _ _ _ IH HM).
    destruct (list_eq_dec Nat.eq_dec (l_out M) [ncols A]) as [E|N]; [|rewrite (l_rmatmul_err A M W N) in H; discriminate].
    destruct (l_rmatmul_ok A M W E) as (P & HP & _ & EiP & EoP & _). assert (P = L) by congruence. subst P. rewrite EiP, EoP. rewrite E in IH. now constructor.
  - apply bind_ok in H as (N & HN & H). apply bind_ok in H as (Q & HQ & H). destruct D as [D1 D2]. specialize (IH N HN D1). assert (T := obuild_typed M Q HQ D2).
    assert (W := K _ _ _ _ IH HN). assert (WQ := V _ _ HQ T). destruct (shapes_eqb_spec (o_out Q) (l_in N)) as [E|NE]; [|rewrite (l_matmul_err N Q W WQ NE) in H; discriminate].
    destruct (l_matmul_ok N Q W WQ E) as (P & HP & _ & EiP & EoP & _). assert (P = L) by congruence. subst P. rewrite EiP, EoP. rewrite E in T. econstructor; eassumption.
  - apply bind_ok in H as (Q & HQ & H). destruct D as [D1 D2]. specialize (D2 Q HQ). assert (T := obuild_typed M Q HQ D1). assert (WQ := V _ _ HQ T).
    unfold to_linfunctl in H. apply bind_ok in H as (ev & Hev & H). apply mk_evalf_inv in Hev as (-> & E).
    set (ev := mkevalf false (fst (o_out Q)) (snd (o_out Q)) X) in *.
    destruct (l_matmul_ok (LEv ev) Q) as (P & HP & _ & EiP & EoP & _); [now constructor|exact WQ|cbn; now destruct (o_out Q)|].
    assert (P = L) by congruence. subst P. rewrite EiP, EoP. change (fty (EValues cod M X) (o_in Q) (snd (o_out Q) ++ ev_batch ev)).
    rewrite D2. apply ft_values with (dom := fst (o_out Q)); [|exact E]. rewrite <- D2. now destruct (o_out Q).
Qed.
Lemma fbuild_err e : forall ex, fbuild e = Err ex -> fleaves e -> ex = AssertionError \/ ex = ValueError.
Proof.
  assert (K : forall e L, fbuild e = Ok L -> fleaves e -> lwf L).
  { intros e' L H D. destruct (fbuild_ok e' _ _ (fbuild_typed e' L H D)) as (L' & HL & W & _). congruence. }
  assert (V : forall M P, obuild M = Ok P -> (forall d, In d (x_diffs M) -> dwf d) -> wfo P).
  { intros M P H D. destruct (omeaning_value _ _ _ (obuild_typed M P H D)) as (P' & HP & W & _). congruence. }
  induction e as [dom cod X|dom cod X|a b cod|dom cod out act|s e IH|e IH|e1 IH1 e2 IH2|e1 IH1 e2 IH2|A e IH|e IH M|cod M X]; intros ex H D; cbn [fbuild] in H; cbn [fleaves] in D.
  1, 2: unfold mk_evalf in H; destruct (shape_eqb _ _); [discriminate|left; cbn in H; congruence].
  1, 2: discriminate.
  1, 2: destruct (fbuild e) as [L|e'] eqn:E; [discriminate|cbn in H; apply IH; [congruence|exact D]].
  1, 2: destruct D as [D1 D2]; destruct (fbuild e1) as [L|e'] eqn:E1; [|cbn in H; apply IH1; [congruence|exact D1]]; cbn [bind] in H;
    destruct (fbuild e2) as [M|e'] eqn:E2; [|cbn in H; apply IH2; [congruence|exact D2]]; cbn [bind] in H;
    left; unfold l_sub, l_add, mk_lsum in H; destruct (_ && _); congruence.
  - destruct (fbuild e) as [L|e'] eqn:E; [|cbn in H; apply IH; [congruence|exact D]]. cbn [bind] in H. assert (W := K e L E D).
    destruct (list_eq_dec Nat.eq_dec (l_out L) [ncols A]) as [EA|N]; [destruct (l_rmatmul_ok A L W EA) as (P & HP & _); congruence|].
    rewrite (l_rmatmul_err A L W N) in H. destruct L as [| | | | | |[B|] L op]; injection H as <-; auto.
  - destruct D as [D1 D2]. destruct (fbuild e) as [L|e'] eqn:E; [|cbn in H; apply IH; [congruence|exact D1]]. cbn [bind] in H.
    destruct (obuild M) as [Q|e'] eqn:EM; [|left; apply (obuild_err M ex D2); cbn in H; congruence]. cbn [bind] in H.
    assert (W := K e L E D1). assert (WQ := V M Q EM D2). destruct (shapes_eqb_spec (o_out Q) (l_in L)) as [X|N].
    + destruct (l_matmul_ok L Q W WQ X) as (P & HP & _). congruence.
    + rewrite (l_matmul_err L Q W WQ N) in H. left. congruence.
  - destruct D as [D1 D2]. destruct (obuild M) as [Q|e'] eqn:EM; [|left; apply (obuild_err M ex D1); cbn in H; congruence]. cbn [bind] in H.
    assert (WQ := V M Q EM D1). unfold to_linfunctl in H. destruct (mk_evalf false (fst (o_out Q)) (snd (o_out Q)) X) as [ev|e'] eqn:Ev; cbn [bind] in H.
    + apply mk_evalf_inv in Ev as (-> & E). edestruct (l_matmul_ok (LEv (mkevalf false (fst (o_out Q)) (snd (o_out Q)) X)) Q) as (P & HP & _); [now constructor|exact WQ|cbn; now destruct (o_out Q)|]. congruence.
    + left. unfold mk_evalf in Ev. destruct (shape_eqb _ _); congruence.
Qed.

(** ** More fuel changes nothing but a RecursionError *)
Lemma lmono_mapM {A} (g h : A -> result (nd RF)) fs : (forall f, In f fs -> rle (g f) (h f)) -> rle (LfoModel.mapM g fs) (LfoModel.mapM h fs).
Proof.
  induction fs as [|f fs IH]; intros H; [apply rle_refl|]. cbn [LfoModel.mapM]. apply rle_bind; [apply H; now left|]. intros.
  apply rle_bind; [apply IH; intros; apply H; now right|]. intros. apply rle_refl.
Qed.
Lemma lcall_mono n : forall L f, rle (lcall n L f) (lcall (S n) L f).
Proof.
  induction n as [|n IH]; intros L f; [now left|].
  assert (B : forall L f, rle (lbase_call (lcall n) L f) (lbase_call (lcall (S n)) L f)).
  { intros L' f'. destruct f'; cbn [lbase_call]; try apply rle_refl.
    - apply rle_bind; [apply IH|intros; apply rle_refl].
    - apply rle_bind; [apply lmono_mapM; intros; apply IH|intros; apply rle_refl]. }
  destruct L as [e|a b cod|m|d c o act|s L|Ls|A L op]; cbn [lcall]; try apply rle_refl.
  - unfold int_call. destruct f; try apply rle_refl; (apply rle_or_else; [apply B|apply rle_refl]).
  - apply B.
  - apply rle_bind; [apply IH|intros; apply rle_refl].
  - apply rle_bind; [apply lmono_mapM; intros; apply IH|intros; apply rle_refl].
  - apply rle_bind; [destruct op; [apply call_mono|apply rle_refl]|]. intros g. apply rle_bind; [apply IH|intros; apply rle_refl].
Qed.
Lemma lcall_more n m L f v : (n <= m)%nat -> lcall n L f = Ok v -> lcall m L f = Ok v.
Proof. intros Hnm E. induction Hnm as [|m Hnm IH]; [exact E|]. destruct (lcall_mono m L f) as [X|X]; congruence. Qed.

(** ** Termination *)
(** Functionals that hand the function to something that accepts every function. *)
Inductive direct : lfn -> Prop :=
| di_ev e : direct (LEv e)
| di_act d c o act : direct (LAct d c o act)
| di_scaled s L : direct L -> direct (LScaled s L)
| di_sum Ls : (forall M, In M Ls -> direct M) -> direct (LSum Ls)
| di_comp A L : direct L -> direct (LComp A L None).
(** Functionals that return on functions without scaled summands. *)
Inductive ltot : lfn -> Prop :=
| lt_direct L : direct L -> ltot L
| lt_int a b : ltot (LInt a b [])
| lt_scaled s L : ltot L -> ltot (LScaled s L)
| lt_sum Ls : (forall M, In M Ls -> ltot M) -> ltot (LSum Ls)
| lt_comp A L : ltot L -> ltot (LComp A L None)
| lt_comp_scaled A L M : direct L -> outer_scaled M -> ltot (LComp A L (Some M))
| lt_comp_plain A L M : ltot L -> plain M -> ltot (LComp A L (Some M)).

Lemma lfuel_list Ls f : (forall L, In L Ls -> exists n v, lcall n L f = Ok v) -> exists n vs, LfoModel.mapM (fun M => lcall n M f) Ls = Ok vs.
Proof.
  induction Ls as [|L Ls IH]; intros H; [exists 0%nat, []; reflexivity|].
  destruct IH as (n & vs & Hn); [intros; apply H; now right|]. destruct (H L (or_introl eq_refl)) as (m & v & Hv).
  exists (Nat.max n m), (v :: vs). cbn [LfoModel.mapM]. rewrite (lcall_more m _ L f v) by (lia || exact Hv). cbn [bind].
  assert (G : forall l ws, LfoModel.mapM (fun M => lcall n M f) l = Ok ws -> LfoModel.mapM (fun M => lcall (Nat.max n m) M f) l = Ok ws).
  { induction l as [|M l IHl]; intros ws Hw; [exact Hw|]. cbn [LfoModel.mapM] in Hw |- *. apply bind_ok in Hw as (w & Hw1 & Hw). apply bind_ok in Hw as (ws' & Hw2 & [= <-]).
    rewrite (lcall_more n _ M f w) by (lia || exact Hw1). cbn [bind]. now rewrite (IHl ws' Hw2). }
  now rewrite (G Ls vs Hn).
Qed.
Lemma lsum_total L Ls f : lwf (LSum (L :: Ls)) -> fwf f -> fsm f -> (in_shape f, out_shape f) = l_in L ->
  (forall M, In M (L :: Ls) -> exists n v, lcall n M f = Ok v) -> exists n v, lcall n (LSum (L :: Ls)) f = Ok v.
Proof.
  intros W Wf Sf E H. destruct (lfuel_list _ f H) as (n & vs & Hn). exists (S n). cbn [lcall]. rewrite Hn. cbn [bind].
  inversion W as [| | | |? ? HW HE|]; subst.
  assert (T : Forall2 (fun _ (w : nd RF) => nshape w = l_out L) (L :: Ls) vs).
  { apply (mapM_forall _ _ _ _ Hn). intros M w HM Hw. destruct (HE M HM) as [Ei Eo]. rewrite <- Eo.
    apply (lcall_sound n M f w); auto. rewrite Ei. exact E. }
  inversion T as [|? v ? ws Sv T']; subst. cbn [reduce]. apply reduceM_add_total. intros w Hw. rewrite Sv. clear - T' Hw.
  induction T' as [|M y l m Hy _ IH]; [destruct Hw|]. destruct Hw as [<-|Hw]; [exact Hy|now apply IH].
Qed.
(** Post-composition with the matrix succeeds once the inner functional has returned. *)
Lemma lcomp_total A L op f g n v : lwf (LComp A L op) -> fwf g -> fsm g -> (in_shape g, out_shape g) = l_in L ->
  match op with Some P => call n P f | None => Ok f end = Ok g -> lcall n L g = Ok v -> exists w, lcall (S n) (LComp A L op) f = Ok w.
Proof.
  intros W Wg Sg Eg Hg Hv. inversion W as [| | | | |? ? ? WL Hop HA]; subst. cbn [lcall]. rewrite Hg. cbn [bind]. rewrite Hv. cbn [bind].
  destruct A as [B|]; [|eauto]. destruct (lcall_sound n L g v WL Wg Sg Eg Hv) as [Sv _]. rewrite (HA B eq_refl) in Sv.
  destruct (lin_axis_ok B v [] (ncols B) []) as (u & Eu & _); [exact Sv|reflexivity|]. rewrite Sv. cbn [length Nat.sub] in *. rewrite Eu. eauto.
Qed.
Lemma direct_total L : direct L -> lwf L -> forall f, fwf f -> fsm f -> (in_shape f, out_shape f) = l_in L -> exists n v, lcall n L f = Ok v.
Proof.
  induction 1 as [e|d c o act|s L D IH|Ls D IH|A L D IH]; intros W f Wf Sf E.
  - inversion W; subst. destruct (ev_ok e f) as (v & Hv & _); [assumption|exact E|]. exists 1%nat, v. exact Hv.
  - exists 1%nat. cbn [lcall]. eauto.
  - inversion W; subst. destruct (IH ltac:(assumption) f Wf Sf E) as (n & v & Hv). exists (S n). cbn [lcall]. rewrite Hv. cbn. eauto.
  - inversion W as [| | | |L Ms HW HE|]; subst. apply lsum_total; auto. intros M HM. apply IH; auto. destruct (HE M HM) as [-> _]. exact E.
  - inversion W as [| | | | |? ? ? WL Hop HA]; subst. destruct (IH WL f Wf Sf E) as (n & v & Hv).
    destruct (lcomp_total A L None f f n v W Wf Sf E eq_refl Hv) as [w Hw]. eauto.
Qed.
Lemma int_leaf a b f : is_sum f = false -> is_scaled f = false -> in_shape f = [] -> out_shape f = [] -> exists v, lcall 2 (LInt a b []) f = Ok v /\ nshape v = [].
Proof.
  intros Hs Hc Hi Ho. destruct f as [i o g|i o u|i o|p|c f|gs]; try discriminate; cbn [in_shape out_shape] in *; subst; cbn; try (eexists; split; reflexivity).
Qed.
Lemma int_total a b f : fwf f -> fsm f -> unscaled f -> in_shape f = [] -> out_shape f = [] -> exists v, lcall 3 (LInt a b []) f = Ok v.
Proof.
  intros W S U Hi Ho. destruct (is_sum f) eqn:Hs.
  - destruct f as [| | | | |gs]; try discriminate. inversion W as [| | | | |g gs' i o Hg]; subst.
    assert (M : exists vs, LfoModel.mapM (lcall 2 (LInt a b [])) (g :: gs') = Ok vs /\ forall v, In v vs -> nshape v = []).
    { assert (G : forall l, (forall h, In h l -> In h (g :: gs')) -> exists vs, LfoModel.mapM (lcall 2 (LInt a b [])) l = Ok vs /\ forall v, In v vs -> nshape v = []).
      { induction l as [|h l IHl]; intros Hl; [exists []; split; [reflexivity|intros ? []]|].
        assert (Hh : In h (g :: gs')) by (apply Hl; now left). destruct (Hg h Hh) as (_ & Sh & Ih & Oh). destruct (Hg g (or_introl eq_refl)) as (_ & _ & Ig & Og). cbn in Hi, Ho.
        destruct (int_leaf a b h Sh (U h Hh)) as (v & Hv & Sv); [congruence|congruence|].
        destruct IHl as (vs & Hvs & Svs); [intros; apply Hl; now right|]. exists (v :: vs). cbn [LfoModel.mapM]. rewrite Hv. cbn [bind]. rewrite Hvs.
        split; [reflexivity|]. intros w [<-|Hw]; auto. }
      apply G. auto. }
    destruct M as (vs & Hvs & Svs). remember 2%nat as n2. cbn [lcall int_call lbase_call]. rewrite Hvs. cbn [bind].
    destruct vs as [|v vs]; [apply mapM_forall with (P := fun _ _ => True) in Hvs; [inversion Hvs|auto]|].
    cbn [py_sum]. destruct (reduceM_add_total vs (nd_map (fadd f0) v)) as [c Hc]; [intros w Hw; exact (eq_trans (Svs w (or_intror Hw)) (eq_sym (Svs v (or_introl eq_refl))))|].
    exists c. now rewrite Hc.
  - destruct (is_scaled f) eqn:SC.
    + exfalso. assert (In f (summands f)) by (destruct f; try discriminate; now left). rewrite (U f H) in SC. discriminate.
    + destruct (int_leaf a b f Hs SC Hi Ho) as (v & Hv & _). exists v. apply (lcall_more 2); [lia|exact Hv].
Qed.
Lemma ltot_total L : ltot L -> lwf L -> forall f, fwf f -> fsm f -> unscaled f -> (in_shape f, out_shape f) = l_in L -> exists n v, lcall n L f = Ok v.
Proof.
  induction 1 as [L D|a b|s L D IH|Ls D IH|A L D IH|A L M D O|A L M D IH P]; intros W f Wf Sf U E.
  - now apply direct_total.
  - injection E as E1 E2. exists 3%nat. now apply int_total.
  - inversion W; subst. destruct (IH ltac:(assumption) f Wf Sf U E) as (n & v & Hv). exists (S n). cbn [lcall]. rewrite Hv. cbn. eauto.
  - inversion W as [| | | |L Ms HW HE|]; subst. apply lsum_total; auto. intros M HM. apply IH; auto. destruct (HE M HM) as [-> _]. exact E.
  - inversion W as [| | | | |? ? ? WL Hop HA]; subst. destruct (IH WL f Wf Sf U E) as (n & v & Hv).
    destruct (lcomp_total A L None f f n v W Wf Sf E eq_refl Hv) as [w Hw]. eauto.
  - inversion W as [| | | | |? ? ? WL Hop HA]; subst. destruct (Hop M eq_refl) as [WM EM]. destruct (outer_total M O WM f Wf Sf U E) as (n & g & Hg).
    destruct (call_sound n M f g WM Wf Sf E Hg) as (Wg & Sg & Eg & _). rewrite EM in Eg. destruct (direct_total L D WL g Wg Sg Eg) as (m & v & Hv).
    destruct (lcomp_total A L (Some M) f g (Nat.max n m) v W Wg Sg Eg) as [w Hw]; [apply (call_more n); [lia|exact Hg]|apply (lcall_more m); [lia|exact Hv]|eauto].
  - inversion W as [| | | | |? ? ? WL Hop HA]; subst. destruct (Hop M eq_refl) as [WM EM]. destruct (plain_total M P WM f Wf Sf U E) as (n & g & Hg & Ug).
    destruct (call_sound n M f g WM Wf Sf E Hg) as (Wg & Sg & Eg & _). rewrite EM in Eg. destruct (IH WL g Wg Sg Ug Eg) as (m & v & Hv).
    destruct (lcomp_total A L (Some M) f g (Nat.max n m) v W Wg Sg Eg) as [w Hw]; [apply (call_more n); [lia|exact Hg]|apply (lcall_more m); [lia|exact Hv]|eauto].
Qed.
