(** Applying operators computes their meaning. *)
From Coq Require Import List Reals Lra Lia Bool Arith ZArith FunctionalExtensionality.
From Coquelicot Require Import Coquelicot.
From Verif Require Import Base NdArray PolyClassModel PolyCalc FunExprModel FunExprProofs
  DiffopModel DiffopSpec DiffopProofs DiffopFactor LfoModel LfoSpec LfoSmooth.
Import ListNotations.
Open Scope R_scope.

Lemma bind_ok {A B} (r : result A) (f : A -> result B) b : bind r f = Ok b -> exists a, r = Ok a /\ f a = Ok b.
Proof. destruct r as [a|e]; cbn; [eauto|discriminate]. Qed.
Lemma shapes_eqb_spec a b : reflect (a = b) (shapes_eqb a b).
Proof.
  destruct a as [a1 a2], b as [b1 b2]. unfold shapes_eqb. cbn.
  destruct (shape_eqb_spec a1 b1), (shape_eqb_spec a2 b2); constructor; congruence.
Qed.

(** ** Induction over functions *)
Lemma fn_induction (P : fn -> Prop) :
  (forall i o g, P (FOther i o g)) -> (forall i o v, P (FConst i o v)) -> (forall i o, P (FZero i o)) ->
  (forall p, P (FPoly p)) -> (forall c f, P f -> P (FScaled c f)) ->
  (forall fs, (forall f, In f fs -> P f) -> P (FSum fs)) -> forall f, P f.
Proof.
  intros H1 H2 H3 H4 H5 H6. fix IH 1. intros [i o g|i o v|i o|p|c f|fs].
  - apply H1. - apply H2. - apply H3. - apply H4. - apply H5, IH.
  - apply H6. induction fs as [|g gs IHgs]; [intros f []|]. intros f [<-|H]; [apply IH|exact (IHgs f H)].
Qed.
Lemma fsm_sum fs : fsm (FSum fs) <-> forall g, In g fs -> fsm g.
Proof.
  split.
  - intros H g Hg i h Hh. apply H. cbn. apply in_flat_map. now exists g.
  - intros H i h Hh. cbn in Hh. apply in_flat_map in Hh as (g & Hg & Hh). exact (H g Hg i h Hh).
Qed.
Lemma fsm_scaled c f : fsm (FScaled c f) <-> fsm f.
Proof. reflexivity. Qed.
Lemma fsm_other i g : smooth i (fun x => g x []) -> fsm (FOther i [] g).
Proof. intros S j h [[= <- <-]|[]]. exact S. Qed.
Lemma fsm_const i o v : fsm (FConst i o v). Proof. intros j h [[=]|[]]. Qed.
Lemma fsm_zero i o : fsm (FZero i o). Proof. intros j h [[=]|[]]. Qed.
Lemma fsm_poly p : fsm (FPoly p). Proof. intros j h [[=]|[]]. Qed.

Lemma feval_smooth f : fwf f -> fsm f -> out_shape f = [] -> smooth (in_shape f) (fun x => feval f x []).
Proof.
  induction f as [i o g|i o v|i o|p|c f IH|fs IH] using fn_induction; intros W S O; cbn [in_shape out_shape feval] in *.
  - subst o. apply S. now left.
  - apply smooth_const. - apply smooth_const. - inversion W; subst. now apply smooth_poly.
  - inversion W; subst. apply smooth_scal. now apply IH.
  - inversion W as [| | | | |f gs i o H]; subst.
    replace (fun x => reduce_add (map (fun f0 => feval f0 x []) (f :: gs))) with (fun x => total (map (fun f0 => feval f0 x []) (f :: gs)))
      by (extensionality x; symmetry; apply reduce_add_fold).
    apply (smooth_total (in_shape f) (fun f0 x => feval f0 x [])). intros g Hg.
    destruct (H g Hg) as (Wg & _ & Ig & Og). destruct (H f (or_introl eq_refl)) as (_ & _ & If & Of).
    rewrite If, <- Ig. apply IH; [exact Hg|exact Wg|exact (proj1 (fsm_sum _) S g Hg)|congruence].
Qed.
Lemma leaf_summands f : leaf_fns f = flat_map leaf_fns (summands f).
Proof. destruct f; cbn; rewrite ?app_nil_r; reflexivity. Qed.
Lemma fsm_summands f : fsm f <-> forall g, In g (summands f) -> fsm g.
Proof. unfold fsm at 1. rewrite leaf_summands. apply (fsm_sum (summands f)). Qed.
Lemma expand_eq fs : expand_summands fs = flat_map summands fs.
Proof. reflexivity. Qed.
Lemma fsm_expand fs : (forall g, In g fs -> fsm g) -> fsm (FSum (expand_summands fs)).
Proof.
  intros H. apply fsm_sum. intros g Hg. rewrite expand_eq in Hg. apply in_flat_map in Hg as (h & Hh & Hg).
  exact (proj1 (fsm_summands h) (H h Hh) g Hg).
Qed.
Lemma fsm_add a b f : fsm a -> fsm b -> fn_add a b = Ok f -> fsm f.
Proof.
  intros Sa Sb.
  assert (J : jax_sum a b = Ok f -> fsm f).
  { unfold jax_sum. destruct (negb _); [discriminate|]. destruct (negb _); [discriminate|]. intros [= <-].
    apply (fsm_expand [a; b]). intros g [<-|[<-|[]]]; assumption. }
  assert (Z : forall i o, add_zero a i o = Ok f -> fsm f).
  { intros i o. unfold add_zero. destruct (negb _); [discriminate|]. destruct (negb _); [discriminate|]. now intros [= <-]. }
  assert (C : forall i1 o1 v1 i2 o2 v2, const_add_const i1 o1 v1 i2 o2 v2 = Ok f -> fsm f).
  { intros i1 o1 v1 i2 o2 v2. unfold const_add_const. destruct (negb _); [discriminate|]. intros H.
    apply bind_ok in H as ([o v] & _ & [= <-]). apply fsm_const. }
  assert (PC : forall p o v, poly_add_constant p o v = Ok f -> fsm f).
  { intros p o v. unfold poly_add_constant. destruct (size o =? 1)%nat; [intros [= <-]; apply fsm_poly|discriminate]. }
  destruct a, b; cbn [fn_add]; eauto. intros [= <-]. apply fsm_poly.
Qed.
Lemma fsm_scale s f : fsm f -> fsm (fn_scale s f).
Proof. intros S. destruct f; cbn [fn_scale]; auto using fsm_const, fsm_zero, fsm_poly. Qed.

(** ** The meaning of operators *)
Lemma osem_ext L : wfo L -> forall F G, (forall x k, valid_index (snd (o_in L)) k -> F x k = G x k) ->
  forall x k, valid_index (snd (o_out L)) k -> osem L F x k = osem L G x k.
Proof.
  induction 1 as [dom cod|d Hd|s L W IH|L Ls W IH Hs|L W IH|L M Ls W IH W2 IH2 E]; intros F G H x k Hk; cbn [osem].
  - now apply H.
  - replace (fun y => F y []) with (fun y => G y []); [reflexivity|]. extensionality y. symmetry. apply H. constructor.
  - now rewrite (IH F G).
  - apply total_ext. intros M HM. destruct (Hs M HM) as [Hi Ho]. apply IH; [exact HM| |].
    + intros y j Hj. apply H. cbn. now rewrite <- Hi.
    + now rewrite Ho.
  - now apply IH.
  - change (osem L (osem (OComp (M :: Ls)) F) x k = osem L (osem (OComp (M :: Ls)) G) x k).
    apply IH; [|exact Hk]. intros y j Hj. apply IH2; [exact H|]. cbn. now rewrite <- E.
Qed.
Definition vsmooth (io : shape * shape) (F : array -> array) : Prop := snd io = [] -> smooth (fst io) (fun x => F x []).
Lemma osem_smooth L : wfo L -> forall F, vsmooth (o_in L) F -> vsmooth (o_out L) (osem L F).
Proof.
  induction 1 as [dom cod|d Hd|s L W IH|L Ls W IH Hs|L W IH|L M Ls W IH W2 IH2 E]; intros F H.
  - exact H.
  - intros _. cbn. apply dsem_smooth. now apply H.
  - intros O. cbn. apply smooth_scal. now apply IH.
  - intros O. cbn [osem o_out]. apply (smooth_total (fst (o_out L)) (fun M x => osem M F x [])). intros M HM.
    destruct (Hs M HM) as [Hi Ho]. rewrite <- Ho. apply IH; [exact HM| |]; [now rewrite Hi|now rewrite Ho].
  - now apply IH.
  - apply IH. rewrite E. now apply IH2.
Qed.
Lemma osem_lin L : wfo L -> forall a F G, vsmooth (o_in L) F -> vsmooth (o_in L) G ->
  osem L (fun x k => a * F x k + G x k) = fun x k => a * osem L F x k + osem L G x k.
Proof.
  induction 1 as [dom cod|d Hd|s L W IH|L Ls W IH Hs|L W IH|L M Ls W IH W2 IH2 E]; intros a F G SF SG.
  - reflexivity.
  - extensionality x. extensionality k. cbn [osem].
    rewrite (dsem_lin d a (fun y => F y []) (fun y => G y [])) by (now apply SF || now apply SG). reflexivity.
  - cbn [osem]. rewrite IH by assumption. extensionality x. extensionality k. ring.
  - extensionality x. extensionality k. cbn [osem]. rewrite <- total_mult, <- total_plus. apply total_ext. intros M HM.
    destruct (Hs M HM) as [Hi Ho]. rewrite IH; [reflexivity|exact HM|now rewrite Hi|now rewrite Hi].
  - now apply IH.
  - change (osem L (osem (OComp (M :: Ls)) (fun x k => a * F x k + G x k)) = fun x k => a * osem L (osem (OComp (M :: Ls)) F) x k + osem L (osem (OComp (M :: Ls)) G) x k).
    rewrite IH2 by assumption. apply IH; rewrite E; now apply (osem_smooth (OComp (M :: Ls))).
Qed.
Lemma osem_zero L : wfo L -> osem L (fun _ _ => 0) = fun _ _ => 0.
Proof.
  intros W. assert (S0 : vsmooth (o_in L) (fun _ _ => 0)) by (intros _; apply smooth_const).
  transitivity (osem L (fun x k => (-1) * (fun (_ : array) (_ : index) => 0) x k + (fun (_ : array) (_ : index) => 0) x k)).
  - f_equal. extensionality x. extensionality k. ring.
  - rewrite (osem_lin L W (-1) _ _ S0 S0). extensionality x. extensionality k. ring.
Qed.
Lemma osem_total L : wfo L -> forall {A} (h : A -> array -> array) l, (forall a, In a l -> vsmooth (o_in L) (h a)) ->
  osem L (fun x k => total (map (fun a => h a x k) l)) = fun x k => total (map (fun a => osem L (h a) x k) l).
Proof.
  intros W A h l. induction l as [|a l IH]; intros H; [now apply osem_zero|].
  assert (E : (fun x k => total (map (fun a0 => h a0 x k) (a :: l))) = fun x k => 1 * h a x k + total (map (fun a0 => h a0 x k) l))
    by (extensionality x; extensionality k; unfold total; cbn; ring).
  rewrite E, osem_lin; [|exact W|apply H; now left|].
  - rewrite IH by (intros; apply H; now right). extensionality x. extensionality k. unfold total. cbn. ring.
  - intros O. apply (smooth_total (fst (o_in L)) (fun a x => h a x [])). intros b Hb. apply H; [now right|exact O].
Qed.
Lemma iter_const n i c : Nat.iter n (pd i) (fun _ => c) = fun _ => if (n =? 0)%nat then c else 0.
Proof.
  destruct n as [|n]; [reflexivity|]. cbn [Nat.eqb]. induction n as [|n IH].
  - extensionality x. exact (pd_const i c x).
  - change (pd i (Nat.iter (S n) (pd i) (fun _ => c)) = fun _ => 0). rewrite IH. extensionality x. apply pd_const.
Qed.
Lemma pderiv_const a c : mi_wf a -> mi_order a <> 0%nat -> pderiv a (fun _ => c) = fun _ => 0.
Proof.
  intros W O. unfold pderiv.
  assert (G : forall l c, fold_left (fun h i => Nat.iter (mi_entry a i) (pd i) h) l (fun _ => c) =
    fun _ => if forallb (fun i => (mi_entry a i =? 0)%nat) l then c else 0).
  { induction l as [|i l IH]; intros c'; [reflexivity|]. cbn [fold_left forallb]. rewrite iter_const, IH.
    destruct (mi_entry a i =? 0)%nat; cbn [andb]; [reflexivity|]. destruct (forallb _ l); reflexivity. }
  rewrite G. destruct (forallb _ _) eqn:E; [|reflexivity]. exfalso. apply O. unfold mi_order. rewrite (mi_arrE a W).
  rewrite forallb_forall in E. induction (all_indices (mi_shape a)) as [|i l IH]; [reflexivity|].
  change (list_sum (map (mi_entry a) (i :: l))) with (mi_entry a i + list_sum (map (mi_entry a) l))%nat.
  rewrite IH by (intros; apply E; now right). specialize (E i (or_introl eq_refl)). apply Nat.eqb_eq in E. lia.
Qed.
Lemma dsem_const d c : dwf d -> dsem d (fun _ => c) = fun _ => 0.
Proof.
  intros W. destruct d as [a|a|b sh w|sh v]; cbn [dsem dwf] in *; try (now apply pderiv_const).
  - extensionality x. apply total_zero. intros i _.
    replace (pd i (fun _ => c)) with (fun _ : array => 0) by (extensionality y; symmetry; apply pd_const). rewrite pd_const. ring.
  - extensionality x. apply total_zero. intros i _. rewrite pd_const. ring.
Qed.

(** ** Coefficients of the differential operators *)
Lemma dset_new {K V} (eqb : K -> K -> bool) (eqbP : forall a b, reflect (a = b) (eqb a b)) (d : list (K * V)) k v :
  ~ In k (map fst d) -> dset eqb d k v = d ++ [(k, v)].
Proof.
  induction d as [|[k' v'] d IH]; intros H; [reflexivity|]. cbn in *. destruct (eqbP k' k) as [->|]; [tauto|].
  rewrite IH by tauto. reflexivity.
Qed.
Definition axis_items {F : fops} (sh : shape) (w : index -> F) (n : nat) (l : list index) : inner F :=
  flat_map (fun i => if feqb (w i) f0 then [] else [(unit_mi sh i n, w i)]) l.
Lemma axis_list {F : fops} sh (w : index -> F) n : n <> 0%nat ->
  axis_dict sh w n = [([], axis_items sh w n (all_indices sh))].
Proof.
  intros Hn. unfold axis_dict.
  assert (G : forall l acc, NoDup l -> (forall i, In i l -> valid_index sh i) ->
    (forall i, In i l -> ~ In (unit_mi sh i n) (map fst acc)) ->
    fold_left (fun acc i => if feqb (w i) f0 then acc else dset mi_eqb acc (unit_mi sh i n) (w i)) l acc = acc ++ axis_items sh w n l).
  { induction l as [|i l IH]; intros acc N V H; [symmetry; apply app_nil_r|]. inversion N as [|? ? N1 N2]; subst.
    cbn [fold_left axis_items flat_map]. destruct (feqb (w i) f0).
    - apply IH; auto with datatypes.
    - rewrite (dset_new _ mi_eqb_spec) by (apply H; now left). rewrite IH; [now rewrite <- app_assoc|exact N2|auto with datatypes|].
      intros j Hj. rewrite map_app, in_app_iff. intros [Hk|[Hk|[]]]; [revert Hk; apply H; now right|].
        cbn in Hk. apply unit_inj in Hk; auto with datatypes. congruence. }
  specialize (G (all_indices sh) [] (all_nodup sh)). cbn [app] in G. unfold unit_mi in G. rewrite G; [reflexivity| |].
  - intros i. apply all_indices_spec. - intros i _ [].
Qed.
Lemma unit_order sh i n : n <> 0%nat -> valid_index sh i -> mi_order (unit_mi sh i n) <> 0%nat.
Proof.
  intros Hn V E. unfold mi_order in E. assert (W : mi_wf (unit_mi sh i n)) by (eapply is_wf; apply unit_is).
  pose proof (sum_zero_all _ E n) as Z. apply Hn, Z. rewrite (mi_arrE _ W). apply in_map_iff. exists i.
  split; [rewrite entry_unit by exact V; unfold axis; destruct (list_eq_dec Nat.eq_dec i i); congruence|now apply all_indices_spec].
Qed.
Lemma mk_coeffs_inv {F : fops} (d : outer F) dom cod c : mk_coeffs d dom cod = Ok c -> c = Coeffs d dom cod.
Proof. unfold mk_coeffs. match goal with |- context [if ?b then _ else _] => destruct b end; [now intros [= <-]|discriminate]. Qed.
Lemma axis_items_value sh (w : index -> R) n f x : n <> 0%nat ->
  total (map (fun '(a, c) => c * pderiv a f x) (axis_items (F := RF) sh w n (all_indices sh))) =
  total (map (fun i => w i * Nat.iter n (pd i) f x) (all_indices sh)).
Proof.
  intros Hn. assert (V : forall i, In i (all_indices sh) -> valid_index sh i) by (intros i; apply all_indices_spec).
  induction (all_indices sh) as [|i l IH]; [reflexivity|]. cbn [axis_items flat_map]. rewrite map_app, total_app.
  change (total (map (fun i0 => w i0 * Nat.iter n (pd i0) f x) (i :: l))) with (w i * Nat.iter n (pd i) f x + total (map (fun i0 => w i0 * Nat.iter n (pd i0) f x) l)).
  apply f_equal2; [|apply IH; intros; apply V; now right]. destruct (feqb (f := RF) (w i) f0) eqn:E.
  - apply (fl_eqb RF RF_laws) in E. change (w i = 0) in E. rewrite E. unfold total. cbn [map fold_right]. ring.
  - unfold total. cbn [map fold_right]. rewrite pderiv_unit by (apply V; now left). ring.
Qed.
Lemma axis_items_in {F : fops} sh (w : index -> F) n a c : n <> 0%nat -> In (a, c) (axis_items sh w n (all_indices sh)) ->
  mi_shape a = sh /\ mi_wf a /\ mi_order a <> 0%nat.
Proof.
  intros Hn H. apply in_flat_map in H as (i & Hi & H). apply all_indices_spec in Hi. destruct (feqb (w i) f0); [destruct H|].
  destruct H as [[= <- <-]|[]]. split; [reflexivity|]. split; [eapply is_wf; apply unit_is|now apply unit_order].
Qed.
Lemma d_coeffs_ok d c : dwf d -> d_coeffs d = Ok c -> exists inn, c_dict c = [([], inn)] /\
  (forall a y, In (a, y) inn -> mi_shape a = d_dom d /\ mi_wf a /\ mi_order a <> 0%nat) /\
  forall f x, total (map (fun '(a, y) => y * pderiv a f x) inn) = dsem d f x.
Proof.
  intros W H. destruct d as [a|a|b sh w|sh v]; cbn [d_coeffs] in H; apply mk_coeffs_inv in H as ->; cbn [c_dict];
    try (eexists; split; [reflexivity|]; split; [intros a' y [[= <- <-]|[]]; destruct W; auto|];
      intros f x; unfold total; cbn [map fold_right dsem]; cbn; ring).
  - rewrite axis_list by discriminate. eexists. split; [reflexivity|]. split; [intros a y; now apply axis_items_in|].
    intros f x. now rewrite axis_items_value.
  - rewrite axis_list by discriminate. eexists. split; [reflexivity|]. split; [intros a y; now apply axis_items_in|].
    intros f x. now rewrite axis_items_value.
Qed.
Lemma mk_sum_ok Ls P : mk_sum Ls = Ok P -> exists L Ms, Ls = L :: Ms /\ P = OSum Ls /\
  forall M, In M Ls -> o_in M = o_in L /\ o_out M = o_out L.
Proof.
  destruct Ls as [|L Ms]; [discriminate|]. unfold mk_sum. destruct (forallb _ _) eqn:E; [|discriminate]. intros [= <-].
  exists L, Ms. split; [reflexivity|]. split; [reflexivity|]. intros M HM. rewrite forallb_forall in E. specialize (E M HM).
  apply andb_true_iff in E as [E1 E2]. destruct (shapes_eqb_spec (o_in M) (o_in L)), (shapes_eqb_spec (o_out M) (o_out L)); easy.
Qed.
Lemma mk_sum_wf Ls P : mk_sum Ls = Ok P -> (forall M, In M Ls -> wfo M) ->
  wfo P /\ (forall M, In M Ls -> o_in M = o_in P /\ o_out M = o_out P) /\ forall F x k, osem P F x k = total (map (fun M => osem M F x k) Ls).
Proof.
  intros H W. apply mk_sum_ok in H as (L & Ms & -> & -> & H). split; [now constructor|]. split; [exact H|reflexivity].
Qed.
Lemma to_sum_ok d L : dwf d -> to_sum_no_jax d = Ok L ->
  wfo L /\ o_in L = (d_dom d, []) /\ o_out L = (d_dom d, []) /\ forall F x k, osem L F x k = osem (ODiff d) F x k.
Proof.
  intros W H. unfold to_sum_no_jax in H. apply bind_ok in H as (c & Hc & H). destruct (d_coeffs_ok d c W Hc) as (inn & E & Hinn & V).
  rewrite E in H. apply bind_ok in H as (Ls & HLs & H). cbn [mapM] in HLs. apply bind_ok in HLs as (I & HI & HLs).
  cbn [bind] in HLs. injection HLs as <-.
  assert (WI : forall M, In M (map (fun '(a, x) => o_scale x (ODiff (DPartialNoJax a))) inn) -> wfo M).
  { intros M HM. apply in_map_iff in HM as ([a x] & <- & Ha). cbn. constructor. constructor. destruct (Hinn a x Ha) as (_ & ? & ?). now split. }
  pose proof (mk_sum_wf _ _ HI WI) as (W1 & S1 & V1).
  assert (WO : forall M, In M [I] -> wfo M) by (intros M [<-|[]]; exact W1).
  pose proof (mk_sum_wf _ _ H WO) as (W2 & S2 & V2).
  destruct (S2 I (or_introl eq_refl)) as [Ei Eo].
  apply mk_sum_ok in HI as (M0 & Ms & EM & _ & _). destruct inn as [|[a0 y0] inn]; [discriminate EM|].
  assert (H0 : In (o_scale y0 (ODiff (DPartialNoJax a0))) (map (fun '(a, x) => o_scale x (ODiff (DPartialNoJax a))) ((a0, y0) :: inn))) by now left.
  destruct (S1 _ H0) as [Ei' Eo']. destruct (Hinn a0 y0 (or_introl eq_refl)) as (Hs & _ & _). cbn in Ei', Eo'. rewrite Hs in Ei', Eo'.
  split; [exact W2|]. split; [congruence|]. split; [congruence|].
  intros F x k. rewrite V2. unfold total at 1. cbn [map fold_right]. rewrite Rplus_0_r, V1. cbn [osem]. rewrite <- V.
  rewrite map_map. f_equal. apply map_ext. intros [a y]. reflexivity.
Qed.
