(** Fuel monotonicity, termination of operator application, and the meaning of the
    arithmetic of operators. *)
From Coq Require Import List Reals Lra Lia Bool Arith ZArith FunctionalExtensionality.
From Coquelicot Require Import Coquelicot.
From Verif Require Import Base NdArray PolyClassModel PolyCalc FunExprModel FunExprProofs
  DiffopModel DiffopSpec DiffopProofs DiffopFactor LfoModel LfoSpec LfoSmooth LfoProofs LfoSound.
Import ListNotations.
Open Scope R_scope.

(** ** More fuel changes nothing but a RecursionError *)
Definition rle {A} (r s : result A) : Prop := r = Err RecursionError \/ r = s.
Lemma rle_refl {A} (r : result A) : rle r r. Proof. now right. Qed.
Lemma rle_bind {A B} (r s : result A) (f g : A -> result B) : rle r s -> (forall a, rle (f a) (g a)) -> rle (bind r f) (bind s g).
Proof. intros [->| ->] H; [now left|]. destruct s as [a|e]; [apply H|apply rle_refl]. Qed.
Lemma rle_or_else {A} (r s r' s' : result A) : rle r s -> rle r' s' -> rle (or_else r r') (or_else s s').
Proof. intros [->| ->] H; [now left|]. destruct s as [a|[]]; try apply rle_refl. exact H. Qed.
Section Mono.
Variables c1 c2 : lfo -> fn -> result fn.
Hypothesis H : forall L f, rle (c1 L f) (c2 L f).
Lemma mono_mapM L fs : rle (mapM (c1 L) fs) (mapM (c2 L) fs).
Proof. induction fs as [|f fs IH]; [apply rle_refl|]. cbn. apply rle_bind; [apply H|]. intros. apply rle_bind; [exact IH|]. intros. apply rle_refl. Qed.
Lemma mono_base L f : rle (base_call c1 L f) (base_call c2 L f).
Proof.
  destruct f; cbn [base_call]; try apply rle_refl.
  - apply rle_bind; [apply H|intros; apply rle_refl]. - apply rle_bind; [apply mono_mapM|intros; apply rle_refl].
Qed.
Lemma mono_diff d f : rle (diffop_call c1 d f) (diffop_call c2 d f).
Proof.
  unfold diffop_call. destruct (_ && _); [apply rle_refl|]. destruct (d_order0 d); [apply rle_refl|]. unfold lindiffop_call, call_no_jax.
  apply rle_or_else; [|apply rle_refl]. apply rle_or_else; [apply mono_base|]. destruct (is_partial d); [apply rle_refl|].
  apply rle_bind; [apply rle_refl|intros; apply H].
Qed.
Lemma mono_sum Ls f : rle (sum_call c1 Ls f) (sum_call c2 Ls f).
Proof.
  destruct Ls as [|L Ls]; [apply rle_refl|]. cbn [sum_call].
  assert (G : forall r s, rle r s -> rle (fold_left (fun acc M => bind acc (fun a => bind (c1 M f) (fun b => fn_add a b))) Ls r)
    (fold_left (fun acc M => bind acc (fun a => bind (c2 M f) (fun b => fn_add a b))) Ls s)).
  { induction Ls as [|M Ls IH]; intros r s Hrs; [exact Hrs|]. cbn. apply IH. apply rle_bind; [exact Hrs|]. intros. apply rle_bind; [apply H|intros; apply rle_refl]. }
  apply G, H.
Qed.
Lemma mono_comp Ls f : rle (comp_call c1 Ls f) (comp_call c2 Ls f).
Proof.
  unfold comp_call. assert (G : forall l r s, rle r s -> rle (fold_left (fun acc M => bind acc (fun h => c1 M h)) l r) (fold_left (fun acc M => bind acc (fun h => c2 M h)) l s)).
  { induction l as [|M l IH]; intros r s Hrs; [exact Hrs|]. cbn. apply IH. apply rle_bind; [exact Hrs|intros; apply H]. }
  apply G, rle_refl.
Qed.
End Mono.
Lemma call_mono n L f : rle (call n L f) (call (S n) L f).
Proof.
  revert L f. induction n as [|n IH]; intros L f; [now left|].
  destruct L; cbn [call]; [apply rle_refl|apply (mono_diff _ _ IH)|apply rle_bind; [apply IH|intros; apply rle_refl]|apply (mono_sum _ _ IH)|apply (mono_comp _ _ IH)].
Qed.
Lemma call_more n m L f g : (n <= m)%nat -> call n L f = Ok g -> call m L f = Ok g.
Proof.
  intros Hnm E. induction Hnm as [|m Hnm IH]; [exact E|]. destruct (call_mono m L f) as [X|X]; congruence.
Qed.

(** ** Termination *)
Definition unscaled (f : fn) : Prop := forall g, In g (summands f) -> is_scaled g = false.
Definition dtotal (d : dop) : Prop :=
  match d with
  | DPartial a => mi_wf a /\ mi_order a <> 0%nat
  | DPartialNoJax _ => False
  | DLap _ sh w => (length sh <= 1)%nat /\ exists i, valid_index sh i /\ w i <> 0
  | DDir sh v => exists i, valid_index sh i /\ v i <> 0
  end.
Lemma dtotal_wf d : dtotal d -> dwf d.
Proof. destruct d; cbn; tauto. Qed.
(** Operators without scaling, and operators that scale only after everything else. *)
Inductive plain : lfo -> Prop :=
| pl_id dom cod : plain (OId dom cod)
| pl_diff d : dtotal d -> plain (ODiff d)
| pl_sum Ls : (forall M, In M Ls -> plain M) -> plain (OSum Ls)
| pl_comp Ls : (forall M, In M Ls -> plain M) -> plain (OComp Ls).
Inductive outer_scaled : lfo -> Prop :=
| os_plain L : plain L -> outer_scaled L
| os_scaled s L : outer_scaled L -> outer_scaled (OScaled s L)
| os_sum Ls : (forall M, In M Ls -> outer_scaled M) -> outer_scaled (OSum Ls)
| os_comp L Ls : outer_scaled L -> (forall M, In M Ls -> plain M) -> outer_scaled (OComp (L :: Ls)).

Lemma unscaled_expand fs : (forall f, In f fs -> unscaled f) -> unscaled (FSum (expand_summands fs)).
Proof. intros H g Hg. cbn in Hg. rewrite expand_eq in Hg. apply in_flat_map in Hg as (f & Hf & Hg). exact (H f Hf g Hg). Qed.
Lemma unscaled_one f : is_sum f = false -> is_scaled f = false -> unscaled f.
Proof. intros H1 H2 g Hg. destruct f; try discriminate; destruct Hg as [<-|[]]; reflexivity. Qed.
Lemma unscaled_add a b g : unscaled a -> unscaled b -> fn_add a b = Ok g -> unscaled g.
Proof.
  intros Ua Ub.
  assert (J : jax_sum a b = Ok g -> unscaled g).
  { unfold jax_sum. destruct (negb _); [discriminate|]. destruct (negb _); [discriminate|]. intros [= <-].
    apply (unscaled_expand [a; b]). intros f [<-|[<-|[]]]; assumption. }
  assert (Z : forall i o, add_zero a i o = Ok g -> unscaled g).
  { intros i o. unfold add_zero. destruct (negb _); [discriminate|]. destruct (negb _); [discriminate|]. now intros [= <-]. }
  assert (C : forall i1 o1 v1 i2 o2 v2, const_add_const i1 o1 v1 i2 o2 v2 = Ok g -> unscaled g).
  { intros i1 o1 v1 i2 o2 v2. unfold const_add_const. destruct (negb _); [discriminate|]. intros H.
    apply bind_ok in H as ([o v] & _ & [= <-]). now apply unscaled_one. }
  assert (PC : forall p o v, poly_add_constant p o v = Ok g -> unscaled g).
  { intros p o v. unfold poly_add_constant. destruct (size o =? 1)%nat; [intros [= <-]; now apply unscaled_one|discriminate]. }
  destruct a, b; cbn [fn_add]; eauto. intros [= <-]. now apply unscaled_one.
Qed.

(** The expansion into partial derivatives exists when some coefficient is non-zero. *)
Lemma axis_items_nonempty sh (w : index -> R) n i : valid_index sh i -> w i <> 0 -> axis_items (F := RF) sh w n (all_indices sh) <> [].
Proof.
  intros V Hw E. assert (H : In (unit_mi sh i n, w i) (axis_items (F := RF) sh w n (all_indices sh))).
  { apply in_flat_map. exists i. split; [now apply all_indices_spec|]. destruct (feqb (f := RF) (w i) f0) eqn:X; [|now left].
    exfalso. apply Hw. now apply (fl_eqb RF RF_laws) in X. }
  rewrite E in H. destruct H.
Qed.
Lemma to_sum_form d : is_partial d = false -> dtotal d -> exists y0 a0 inn,
  to_sum_no_jax d = Ok (OSum [OSum (map (fun '(a, x) => OScaled x (ODiff (DPartialNoJax a))) ((a0, y0) :: inn))]) /\
  forall a y, In (a, y) ((a0, y0) :: inn) -> mi_shape a = d_dom d /\ mi_wf a /\ mi_order a <> 0%nat.
Proof.
  intros P T. assert (Dc : exists c, d_coeffs d = Ok c).
  { destruct d as [a|a|b sh w|sh v]; try discriminate; cbn [d_coeffs].
    - destruct (axis_ok RF RF_laws sh w 2) as (c & Hc & _); [discriminate|]. now exists c.
    - destruct (axis_ok RF RF_laws sh v 1) as (c & Hc & _); [discriminate|]. now exists c. }
  destruct Dc as [c Hc]. destruct (d_coeffs_ok d c (dtotal_wf d T) Hc) as (inn & E & Hinn & _).
  assert (N : inn <> []).
  { destruct d as [a|a|b sh w|sh v]; try discriminate; cbn [d_coeffs] in Hc; apply mk_coeffs_inv in Hc as ->; cbn [c_dict] in E;
      rewrite axis_list in E by discriminate; injection E as <-.
    - destruct T as [_ (i & V & Hw)]. now apply axis_items_nonempty with (i := i).
    - destruct T as (i & V & Hw). now apply axis_items_nonempty with (i := i). }
  destruct inn as [|[a0 y0] inn]; [congruence|]. exists y0, a0, inn. split; [|exact Hinn].
  unfold to_sum_no_jax. rewrite Hc. cbn [bind]. rewrite E. cbn [mapM].
  assert (M : map (fun '(a, x) => o_scale x (ODiff (DPartialNoJax a))) ((a0, y0) :: inn) = map (fun '(a, x) => OScaled x (ODiff (DPartialNoJax a))) ((a0, y0) :: inn))
    by (apply map_ext; intros [a x]; reflexivity).
  rewrite M.
  assert (S : mk_sum (map (fun '(a, x) => OScaled x (ODiff (DPartialNoJax a))) ((a0, y0) :: inn)) = Ok (OSum (map (fun '(a, x) => OScaled x (ODiff (DPartialNoJax a))) ((a0, y0) :: inn)))).
  { unfold mk_sum. cbn [map]. match goal with |- context [if ?b then _ else _] => assert (B : b = true) end.
    { apply forallb_forall. intros L HL. change (In L (map (fun '(a, x) => OScaled x (ODiff (DPartialNoJax a))) ((a0, y0) :: inn))) in HL.
      apply in_map_iff in HL as ([a x] & <- & Ha). destruct (Hinn a x Ha) as (Ea & _). destruct (Hinn a0 y0 (or_introl eq_refl)) as (E0 & _).
      cbn. rewrite Ea, E0. unfold shapes_eqb. cbn. now rewrite shape_eqb_refl. }
    now rewrite B. }
  rewrite S. cbn [bind]. unfold mk_sum. cbn [forallb].
  assert (R : forall p, shapes_eqb p p = true) by (intros p; destruct (shapes_eqb_spec p p); congruence). now rewrite !R.
Qed.
Definition opaque_fn (f : fn) : bool := match f with FOther _ _ _ | FPoly _ => true | _ => false end.
Lemma nojax_opaque n a f : mi_order a <> 0%nat -> opaque_fn f = true -> in_shape f = mi_shape a -> out_shape f = [] ->
  call (S n) (ODiff (DPartialNoJax a)) f = Err NotImplementedError.
Proof.
  intros O Hf Hi Ho. cbn [call]. unfold diffop_call. assert (C : is_constant_fn f = false) by (destruct f; easy). rewrite C, andb_false_r.
  cbn [d_order0]. apply Nat.eqb_neq in O. rewrite O. unfold lindiffop_call, call_no_jax.
  assert (B : base_call (call n) (ODiff (DPartialNoJax a)) f = Err NotImplementedError) by (destruct f; easy). rewrite B. cbn [or_else is_partial d_dom].
  rewrite Hi, Ho, !shape_eqb_refl. reflexivity.
Qed.
Lemma nojax_const n a f : is_constant_fn f = true -> in_shape f = mi_shape a -> out_shape f = [] ->
  call (S n) (ODiff (DPartialNoJax a)) f = Ok (FZero (mi_shape a) []).
Proof.
  intros C Hi Ho. cbn [call]. unfold diffop_call. rewrite C. cbn [handles_constants andb d_dom]. rewrite Hi, Ho, !shape_eqb_refl. reflexivity.
Qed.
Lemma sum_err n L Ls f e : call n L f = Err e -> call (S n) (OSum (L :: Ls)) f = Err e.
Proof.
  intros E. cbn [call sum_call]. rewrite E. clear. induction Ls as [|M Ls IH]; [reflexivity|]. exact IH.
Qed.
Lemma sum_zeros n Ls f sh : Ls <> [] -> (forall L, In L Ls -> call n L f = Ok (FZero sh [])) -> call (S n) (OSum Ls) f = Ok (FZero sh []).
Proof.
  destruct Ls as [|L Ls]; [congruence|]. intros _ H. cbn [call sum_call]. rewrite (H L) by now left.
  assert (G : forall M, In M Ls -> call n M f = Ok (FZero sh [])) by (intros; apply H; now right). clear H.
  induction Ls as [|M Ls IH]; [reflexivity|]. cbn [fold_left]. cbn [bind]. rewrite (G M) by now left. cbn [bind fn_add]. unfold add_zero.
  cbn [in_shape out_shape]. rewrite !shape_eqb_refl. cbn [negb]. apply IH. intros; apply G; now right.
Qed.
Lemma jax_total d f : dtotal d -> exists g, jax_fallback d f = Ok g.
Proof.
  intros T. destruct d as [a|a|b sh w|sh v]; cbn [jax_fallback dtotal] in *; [|destruct T| |eauto].
  - destruct (ffo_ok a (proj1 T) (proj2 T)) as (fs & -> & _). cbn. eauto.
  - destruct T as [T _]. apply Nat.leb_le in T. rewrite T. eauto.
Qed.
Lemma leaf_total d f : dtotal d -> is_sum f = false -> is_scaled f = false -> in_shape f = d_dom d -> out_shape f = [] ->
  exists g, call 6 (ODiff d) f = Ok g /\ unscaled g /\ (opaque_fn f = true -> exists h, g = FOther (d_dom d) [] h).
Proof.
  intros T Hs Hc Hi Ho. assert (W := dtotal_wf d T).
  assert (O : d_order0 d = false) by (destruct d; cbn in *; try reflexivity; apply Nat.eqb_neq; tauto).
  assert (Zok : unscaled (FZero (d_dom d) [])) by now apply unscaled_one.
  remember 5%nat as n5 eqn:E5. cbn [call]. unfold diffop_call. destruct (handles_constants d && is_constant_fn f) eqn:HC.
  - rewrite Hi, Ho, !shape_eqb_refl. cbn. eexists. split; [reflexivity|]. split; [exact Zok|]. apply andb_true_iff in HC as [_ HC]. destruct f; easy.
  - rewrite O. unfold lindiffop_call, call_no_jax.
    destruct (opaque_fn f) eqn:OP.
    + assert (B : base_call (call n5) (ODiff d) f = Err NotImplementedError) by (destruct f; easy). rewrite B. cbn [or_else].
      assert (N : (if is_partial d then Err NotImplementedError else bind (to_sum_no_jax d) (fun L => call n5 L f)) = Err NotImplementedError).
      { destruct (is_partial d) eqn:P; [reflexivity|]. destruct (to_sum_form d P T) as (y0 & a0 & inn & -> & Hinn). cbn [bind].
        destruct (Hinn a0 y0 (or_introl eq_refl)) as (Ea & Wa & Oa). subst n5. apply sum_err. cbn [map]. apply sum_err.
        change (call 3 (OScaled y0 (ODiff (DPartialNoJax a0))) f) with (bind (call 2 (ODiff (DPartialNoJax a0)) f) (fun g => Ok (fn_scale (SFloat y0) g))).
        rewrite nojax_opaque; auto. congruence. }
      rewrite N. cbn [or_else]. rewrite Hi, Ho, !shape_eqb_refl. cbn [negb]. destruct (jax_total d (fun x => feval f x []) T) as [g ->].
      eexists. split; [reflexivity|]. split; [now apply unscaled_one|]. eauto.
    + destruct f as [i o h|i o v|i o|p|c f|fs]; try discriminate.
      * cbn [base_call or_else]. destruct (is_partial d) eqn:P; [destruct d; easy|].
        destruct (to_sum_form d P T) as (y0 & a0 & inn & -> & Hinn). cbn [bind]. subst n5.
        rewrite (sum_zeros 4 _ _ (d_dom d)); [cbn; eexists; split; [reflexivity|]; split; [exact Zok|easy]|discriminate|]. intros L [<-|[]].
        apply sum_zeros; [discriminate|]. intros L HL. apply in_map_iff in HL as ([a x] & <- & Ha). destruct (Hinn a x Ha) as (Ea & _).
        change (call 3 (OScaled x (ODiff (DPartialNoJax a))) (FConst i o v)) with (bind (call 2 (ODiff (DPartialNoJax a)) (FConst i o v)) (fun g => Ok (fn_scale (SFloat x) g))).
        rewrite nojax_const; [cbn; congruence|reflexivity|congruence|exact Ho].
      * cbn. eexists. split; [reflexivity|]. split; [exact Zok|easy].
Qed.
Lemma diff_total d f : dtotal d -> fwf f -> fsm f -> unscaled f -> in_shape f = d_dom d -> out_shape f = [] ->
  exists g, call 7 (ODiff d) f = Ok g /\ unscaled g.
Proof.
  intros T Wf Sf U Hi Ho. destruct (is_sum f) eqn:S.
  - destruct f as [| | | | |fs]; try discriminate. inversion Wf as [| | | | |f0 fs0 i o HW]; subst.
    assert (M : exists hs, mapM (call 6 (ODiff d)) (f0 :: fs0) = Ok hs /\ (forall h, In h hs -> unscaled h)).
    { assert (G : forall l, (forall f, In f l -> In f (f0 :: fs0)) -> exists hs, mapM (call 6 (ODiff d)) l = Ok hs /\ (forall h, In h hs -> unscaled h)).
      { induction l as [|f l IH]; intros Hl; [exists []; split; [reflexivity|intros ? []]|].
        assert (Hf : In f (f0 :: fs0)) by (apply Hl; now left). destruct (HW f Hf) as (_ & Hsf & Hif & Hof).
        destruct (HW f0 (or_introl eq_refl)) as (_ & _ & Hi0 & Ho0). cbn in Hi, Ho.
        destruct (leaf_total d f T Hsf (U f Hf)) as (g & Hg & Ug & _); [congruence|congruence|].
        destruct IH as (hs & Hhs & Uhs); [intros; apply Hl; now right|]. exists (g :: hs). cbn [mapM]. rewrite Hg. cbn [bind]. rewrite Hhs.
        split; [reflexivity|]. intros h [<-|Hh]; auto. }
      apply G. auto. }
    destruct M as (hs & Hhs & Uhs).
    assert (F2 : List.Forall (fun h => in_shape h = d_dom d /\ out_shape h = []) hs /\ hs <> []).
    { apply mapM_ok in Hhs. split; [|intros ->; inversion Hhs].
      assert (G : forall l hs, Forall2 (fun a b => call 6 (ODiff d) a = Ok b) l hs -> (forall f, In f l -> In f (f0 :: fs0)) -> List.Forall (fun h => in_shape h = d_dom d /\ out_shape h = []) hs).
      { induction 1 as [|f h l hs' Hfh H IH]; intros Hl; constructor; [|apply IH; intros; apply Hl; now right].
        assert (Hf : In f (f0 :: fs0)) by (apply Hl; now left). destruct (HW f Hf) as (Wf' & _ & Hif & Hof).
        destruct (HW f0 (or_introl eq_refl)) as (_ & _ & Hi0 & Ho0). cbn in Hi, Ho.
        destruct (call_sound 6 (ODiff d) f h) as (_ & _ & E & _); [exact (wo_diff d (dtotal_wf d T))|exact Wf'|exact (proj1 (fsm_sum _) Sf f Hf)|change ((in_shape f, out_shape f) = (d_dom d, [])); rewrite Hif, Hof, <- Hi0, <- Ho0, Hi, Ho; reflexivity|exact Hfh|].
        injection E. auto. }
      now apply (G _ _ Hhs). }
    destruct F2 as [F2 NE]. destruct hs as [|h0 hs]; [congruence|].
    assert (J : jax_sum_of (h0 :: hs) = Ok (FSum (expand_summands (h0 :: hs)))).
    { unfold jax_sum_of. rewrite Forall_forall in F2. destruct (F2 h0 (or_introl eq_refl)) as [I0 O0].
      assert (B1 : forallb (fun g => shape_eqb (in_shape g) (in_shape h0)) (h0 :: hs) = true).
      { apply forallb_forall. intros h Hh. destruct (F2 h Hh) as [-> _]. rewrite I0. apply shape_eqb_refl. }
      assert (B2 : forallb (fun g => shape_eqb (out_shape g) (out_shape h0)) (h0 :: hs) = true).
      { apply forallb_forall. intros h Hh. destruct (F2 h Hh) as [_ ->]. rewrite O0. apply shape_eqb_refl. }
      now rewrite B1, B2. }
    exists (FSum (expand_summands (h0 :: hs))). split; [|now apply unscaled_expand].
    remember 6%nat as n6. cbn [call]. unfold diffop_call. cbn [is_constant_fn]. rewrite andb_false_r.
    assert (O : d_order0 d = false) by (destruct d; cbn in *; try reflexivity; apply Nat.eqb_neq; tauto). rewrite O.
    unfold lindiffop_call, call_no_jax. cbn [base_call]. rewrite Hhs. cbn [bind]. rewrite J. reflexivity.
  - destruct (is_scaled f) eqn:SC.
    + exfalso. assert (In f (summands f)) by (destruct f; try discriminate; now left). rewrite (U f H) in SC. discriminate.
    + destruct (leaf_total d f T S SC Hi Ho) as (g & Hg & Ug & _). exists g. split; [|exact Ug]. apply (call_more 6); [lia|exact Hg].
Qed.

(** A common amount of fuel for a list of operators. *)
Lemma fuel_list (Q : fn -> Prop) Ls f : (forall L, In L Ls -> exists n g, call n L f = Ok g /\ Q g) ->
  exists n, forall L, In L Ls -> exists g, call n L f = Ok g /\ Q g.
Proof.
  induction Ls as [|L Ls IH]; intros H; [exists 0%nat; intros L []|].
  destruct IH as [n Hn]; [intros; apply H; now right|]. destruct (H L (or_introl eq_refl)) as (m & g & Hg & Qg).
  exists (Nat.max n m). intros M [<-|HM].
  - exists g. split; [apply (call_more m); [lia|exact Hg]|exact Qg].
  - destruct (Hn M HM) as (h & Hh & Qh). exists h. split; [apply (call_more n); [lia|exact Hh]|exact Qh].
Qed.
Lemma sum_total (Q : fn -> Prop) n L Ls f : wfo (OSum (L :: Ls)) -> fwf f -> fsm f -> (in_shape f, out_shape f) = o_in L ->
  (forall a b g, Q a -> Q b -> fn_add a b = Ok g -> Q g) ->
  (forall M, In M (L :: Ls) -> exists g, call n M f = Ok g /\ Q g) -> exists g, call (S n) (OSum (L :: Ls)) f = Ok g /\ Q g.
Proof.
  intros W Wf Sf E HQ H. inversion W as [| | |? ? WM Hs| |]; subst. cbn [call sum_call].
  destruct (H L (or_introl eq_refl)) as (a & Ha & Qa). rewrite Ha.
  assert (G : forall M b, In M (L :: Ls) -> call n M f = Ok b -> is_fn (o_out L) (osem M (feval f)) b).
  { intros M b HM Hb. destruct (Hs M HM) as [Hi Ho]. rewrite <- Ho. apply (call_sound n); auto. congruence. }
  pose proof (G L a (or_introl eq_refl) Ha) as Fa. revert Qa Fa. generalize (osem L (feval f)) as V. clear Ha. revert a.
  assert (I : forall M, In M Ls -> In M (L :: Ls)) by (intros; now right). revert I.
  generalize Ls at 1 3 as l. induction l as [|M l IH]; intros I a V Qa Fa; [exists a; split; [reflexivity|exact Qa]|].
  cbn [fold_left bind]. assert (HM : In M (L :: Ls)) by (apply I; now left). destruct (H M HM) as (b & Hb & Qb). rewrite Hb. cbn [bind].
  pose proof (G M b HM Hb) as Fb. assert (AD : exists c, fn_add a b = Ok c).
  { destruct Fa as (Wa & _ & Ea & _), Fb as (Wb & _ & Eb & _). destruct (fn_add_ok a b) as (c & Hc & _); auto; try congruence. eauto. }
  destruct AD as [c Hc]. rewrite Hc. apply (IH (fun N HN => I N (or_intror HN)) c (fun x k => V x k + osem M (feval f) x k)); [now apply (HQ a b)|].
  now apply (add_fn _ _ _ a b).
Qed.
Lemma plain_total L : plain L -> wfo L -> forall f, fwf f -> fsm f -> unscaled f -> (in_shape f, out_shape f) = o_in L ->
  exists n g, call n L f = Ok g /\ unscaled g.
Proof.
  induction 1 as [dom cod|d T|Ls P IH|Ls P IH]; intros W f Wf Sf U E.
  - exists 1%nat, f. split; [|exact U]. cbn. unfold id_call. injection E as -> ->. rewrite !shape_eqb_refl. reflexivity.
  - injection E as E1 E2. exists 7%nat. now apply diff_total.
  - inversion W as [| | |L Ms WM Hs| |]; subst.
    destruct (fuel_list unscaled (L :: Ms) f) as [n Hn].
    { intros M HM. apply IH; auto. destruct (Hs M HM) as [-> _]. exact E. }
    destruct (sum_total unscaled n L Ms f W Wf Sf E unscaled_add Hn) as (g & Hg & Ug). eauto.
  - destruct Ls as [|L Ls]; [inversion W|].
    assert (G : forall Ls L, wfo (OComp (L :: Ls)) -> (forall M, In M (L :: Ls) -> In M (L :: Ls)) -> True) by auto. clear G.
    revert L P IH W E. induction Ls as [|M Ls IHL]; intros L P IH W E.
    + inversion W as [| | | |? W1|]; subst. destruct (IH L (or_introl eq_refl) W1 f Wf Sf U E) as (n & g & Hg & Ug).
      exists (S n), g. split; [|exact Ug]. cbn [call]. rewrite comp_right. exact Hg.
    + inversion W as [| | | | |? ? ? WL W2 EL]; subst.
      destruct (IHL M (fun N HN => P N (or_intror HN)) (fun N HN => IH N (or_intror HN)) W2 E) as (n & h & Hh & Uh).
      destruct (call_sound n _ f h W2 Wf Sf E Hh) as (Wh & Sh & Eh & _).
      destruct (IH L (or_introl eq_refl) WL h Wh Sh Uh) as (m & g & Hg & Ug); [rewrite EL; exact Eh|].
      exists (S (Nat.max n m)), g. split; [|exact Ug]. apply (call_more n (S (Nat.max n m))) in Hh; [|lia].
      cbn [call] in Hh |- *. rewrite comp_right in *. cbn [fold_right] in *. rewrite Hh. cbn [bind]. apply (call_more m); [lia|exact Hg].
Qed.
Lemma outer_total L : outer_scaled L -> wfo L -> forall f, fwf f -> fsm f -> unscaled f -> (in_shape f, out_shape f) = o_in L ->
  exists n g, call n L f = Ok g.
Proof.
  induction 1 as [L P|s L P IH|Ls P IH|L Ls P IH PL]; intros W f Wf Sf U E.
  - destruct (plain_total L P W f Wf Sf U E) as (n & g & Hg & _). eauto.
  - inversion W; subst. destruct (IH ltac:(assumption) f Wf Sf U E) as (n & g & Hg). exists (S n). cbn [call]. rewrite Hg. cbn. eauto.
  - inversion W as [| | |L Ms WM Hs| |]; subst.
    destruct (fuel_list (fun _ => True) (L :: Ms) f) as [n Hn].
    { intros M HM. destruct (IH M HM (WM M HM) f Wf Sf U) as (n & g & Hg); [destruct (Hs M HM) as [-> _]; exact E|]. eauto. }
    destruct (sum_total (fun _ => True) n L Ms f W Wf Sf E ltac:(auto) Hn) as (g & Hg & _). eauto.
  - destruct Ls as [|M Ls].
    + inversion W as [| | | |? W1|]; subst. destruct (IH W1 f Wf Sf U E) as (n & g & Hg). exists (S n), g. cbn [call]. now rewrite comp_right.
    + inversion W as [| | | | |? ? ? WL W2 EL]; subst.
      destruct (plain_total (OComp (M :: Ls)) (pl_comp _ PL) W2 f Wf Sf U E) as (n & h & Hh & Uh).
      destruct (call_sound n _ f h W2 Wf Sf E Hh) as (Wh & Sh & Eh & _).
      destruct (IH WL h Wh Sh Uh) as (m & g & Hg); [rewrite EL; exact Eh|].
      exists (S (Nat.max n m)), g. apply (call_more n (S (Nat.max n m))) in Hh; [|lia].
      cbn [call] in Hh |- *. rewrite comp_right in *. cbn [fold_right] in *. rewrite Hh. cbn [bind]. apply (call_more m); [lia|exact Hg].
Qed.
