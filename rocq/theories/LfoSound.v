(** Soundness of applying operators: every successful call returns a function whose
    values are given by the meaning of the operator. *)
From Coq Require Import List Reals Lra Lia Bool Arith ZArith FunctionalExtensionality.
From Coquelicot Require Import Coquelicot.
From Verif Require Import Base NdArray PolyClassModel PolyCalc FunExprModel FunExprProofs
  DiffopModel DiffopSpec DiffopProofs DiffopFactor LfoModel LfoSpec LfoSmooth LfoProofs.
Import ListNotations.
Open Scope R_scope.

(** [g] is a function of shapes [io] with the given values. *)
Definition is_fn (io : shape * shape) (V : array -> array) (g : fn) : Prop :=
  fwf g /\ fsm g /\ (in_shape g, out_shape g) = io /\ forall x k, valid_index (snd io) k -> feval g x k = V x k.
Lemma is_fn_ext io V W g : (forall x k, valid_index (snd io) k -> V x k = W x k) -> is_fn io V g -> is_fn io W g.
Proof. intros H (A & B & C & D). do 3 (split; [assumption|]). intros x k Hk. rewrite D by exact Hk. now apply H. Qed.
Lemma is_fn_smooth io V g : is_fn io V g -> vsmooth io (feval g).
Proof. intros (A & B & <- & D) O. cbn in O. now apply feval_smooth. Qed.

Lemma jax_sum_of_ok io {A} (V : A -> array -> array) hs ys g : Forall2 (fun y h => is_fn io (V y) h) ys hs -> jax_sum_of hs = Ok g ->
  is_fn io (fun x k => total (map (fun y => V y x k) ys)) g.
Proof.
  intros H E.
  assert (NE : hs <> []) by (intros ->; discriminate).
  assert (G : g = FSum (expand_summands hs)).
  { destruct hs as [|h hs]; [discriminate|]. unfold jax_sum_of in E. destruct (forallb _ _); [|discriminate]. destruct (forallb _ _); [|discriminate]. now injection E. }
  subst g. clear E.
  assert (Hh : forall h, In h hs -> fwf h /\ fsm h /\ (in_shape h, out_shape h) = io).
  { clear NE. induction H as [|y h ys hs Hyh H IH]; [intros h []|]. intros h' [<-|Hh']; [|now apply IH]. destruct Hyh as (? & ? & ? & _). auto. }
  assert (W : forall s, In s (expand_summands hs) -> fwf s /\ is_sum s = false /\ in_shape s = fst io /\ out_shape s = snd io).
  { intros s Hs. rewrite expand_eq in Hs. apply in_flat_map in Hs as (h & H1 & H2). destruct (Hh h H1) as (Wh & _ & <-).
    destruct (summands_wf h Wh s H2) as (? & ? & ? & ?). cbn. auto. }
  assert (NE' : expand_summands hs <> []).
  { destruct hs as [|h hs]; [congruence|]. rewrite expand_eq. cbn. destruct (Hh h (or_introl eq_refl)) as (Wh & _).
    pose proof (summands_nonempty h Wh). destruct (summands h); [congruence|discriminate]. }
  split; [|split; [|split]].
  - destruct (expand_summands hs) as [|s ss] eqn:E; [congruence|]. apply wf_sum with (i := fst io) (o := snd io). exact W.
  - apply fsm_expand. intros h H1. now apply Hh.
  - destruct (expand_summands hs) as [|s ss] eqn:E; [congruence|]. cbn. destruct (W s (or_introl eq_refl)) as (_ & _ & -> & ->). now destruct io.
  - intros x k Hk. cbn [feval]. rewrite reduce_add_fold. change (total (map (fun f => feval f x k) (expand_summands hs)) = total (map (fun y => V y x k) ys)).
    clear W NE NE' Hh. induction H as [|y h ys hs Hyh H IH]; [reflexivity|].
    rewrite expand_eq. cbn [flat_map]. rewrite map_app, total_app. rewrite <- expand_eq, IH.
    destruct Hyh as (_ & _ & _ & Hv). change (total (map (fun f => feval f x k) (summands h)) + total (map (fun y => V y x k) ys) = V y x k + total (map (fun y => V y x k) ys)).
    f_equal. rewrite <- Hv by exact Hk. symmetry. apply summands_value.
Qed.
Lemma mapM_ok {A B} (f : A -> result B) l ys : mapM f l = Ok ys -> Forall2 (fun a b => f a = Ok b) l ys.
Proof.
  revert ys. induction l as [|a l IH]; intros ys; cbn [mapM]; [now intros [= <-]|].
  intros H. apply bind_ok in H as (b & Hb & H). apply bind_ok in H as (bs & Hbs & [= <-]). constructor; auto.
Qed.
Lemma add_fn io V W a b g : is_fn io V a -> is_fn io W b -> fn_add a b = Ok g -> is_fn io (fun x k => V x k + W x k) g.
Proof.
  intros (Wa & Sa & Ea & Va) (Wb & Sb & Eb & Vb) H. assert (E : in_shape a = in_shape b /\ out_shape a = out_shape b) by (split; congruence).
  destruct E as [E1 E2]. destruct (fn_add_ok a b Wa Wb E1 E2) as (f & Hf & Wf & If & Of & Vf).
  rewrite H in Hf. injection Hf as <-. split; [exact Wf|]. split; [exact (fsm_add a b g Sa Sb H)|]. split; [congruence|].
  intros x k Hk. rewrite <- Va, <- Vb by exact Hk. apply Vf. rewrite <- Ea in Hk. exact Hk.
Qed.
Lemma scale_fn io V s a : is_fn io V a -> is_fn io (fun x k => s * V x k) (fn_scale (SFloat s) a).
Proof.
  intros (Wa & Sa & Ea & Va). destruct (fn_scale_ok (SFloat s) a Wa) as (H1 & H2 & H3 & H4). split; [exact H1|].
  split; [now apply fsm_scale|]. split; [congruence|]. intros x k Hk. rewrite H4, Va by exact Hk. reflexivity.
Qed.

(** Operators with a base-class dispatch never return from a scaled function. *)
Lemma scaled_diverges n d c f : dwf d -> call n (ODiff d) (FScaled c f) = Err RecursionError.
Proof.
  intros W. induction n as [|n IH]; [reflexivity|]. cbn [call]. unfold diffop_call. cbn [is_constant_fn]. rewrite andb_false_r.
  assert (O : d_order0 d = false) by (destruct d; cbn in *; try reflexivity; apply Nat.eqb_neq; tauto).
  rewrite O. unfold lindiffop_call, call_no_jax, base_call. rewrite IH. reflexivity.
Qed.

Section Step.
Variable n : nat.
Hypothesis IH : forall L f g, wfo L -> fwf f -> fsm f -> (in_shape f, out_shape f) = o_in L -> call n L f = Ok g ->
  is_fn (o_out L) (osem L (feval f)) g.

Lemma zero_fn d f : dwf d -> (exists c : R, forall x, feval f x [] = c) -> is_fn (d_dom d, []) (osem (ODiff d) (feval f)) (FZero (d_dom d) []).
Proof.
  intros W [c Hc]. split; [constructor|]. split; [apply fsm_zero|]. split; [reflexivity|]. intros x k _. cbn.
  replace (fun y => feval f y []) with (fun _ : array => c) by (extensionality y; symmetry; apply Hc). now rewrite dsem_const.
Qed.
Lemma base_fn d f g : dwf d -> fwf f -> fsm f -> (in_shape f, out_shape f) = (d_dom d, []) ->
  base_call (call n) (ODiff d) f = Ok g -> is_fn (d_dom d, []) (osem (ODiff d) (feval f)) g.
Proof.
  intros W Wf Sf E H. destruct f as [i o h|i o v|i o|p|c f|fs]; cbn [base_call] in H; try discriminate.
  - injection H as <-. apply zero_fn; [exact W|]. now exists 0.
  - rewrite scaled_diverges in H by exact W. discriminate.
  - apply bind_ok in H as (hs & Hhs & H). apply mapM_ok in Hhs.
    inversion Wf as [| | | | |f0 fs0 i o HW]; subst.
    assert (G : forall f, In f (f0 :: fs0) -> fwf f /\ fsm f /\ (in_shape f, out_shape f) = (d_dom d, [])).
    { intros f Hf. destruct (HW f Hf) as (Hw & _ & Hi & Ho). destruct (HW f0 (or_introl eq_refl)) as (_ & _ & Hi0 & Ho0).
      split; [exact Hw|]. split; [exact (proj1 (fsm_sum _) Sf f Hf)|]. cbn in E. congruence. }
    assert (F2 : Forall2 (fun f h => is_fn (d_dom d, []) (osem (ODiff d) (feval f)) h) (f0 :: fs0) hs).
    { clear HW Wf Sf E H. induction Hhs as [|f h fs hs Hfh Hhs IH2]; constructor; [|apply IH2; intros; apply G; now right].
      destruct (G f (or_introl eq_refl)) as (? & ? & ?). apply (IH (ODiff d) f h); auto. now constructor. }
    pose proof (jax_sum_of_ok _ (fun f => osem (ODiff d) (feval f)) _ _ _ F2 H) as R. revert R. apply is_fn_ext.
    intros x k _. assert (WO : wfo (ODiff d)) by now constructor.
    pose proof (osem_total (ODiff d) WO feval (f0 :: fs0)) as T. rewrite <- (f_equal (fun h => h x k) (T ltac:(intros f Hf O; destruct (G f Hf) as (? & ? & Ef); injection Ef as Ef1 Ef2; cbn; rewrite <- Ef1; now apply feval_smooth))).
    cbn [osem]. f_equal. extensionality y. symmetry. apply reduce_add_fold.
Qed.
Lemma or_else_ok {A} (r alt : result A) g : or_else r alt = Ok g -> r = Ok g \/ alt = Ok g.
Proof. destruct r as [a|[]]; cbn; auto. Qed.
Lemma jax_fn d f g : dwf d -> smooth (d_dom d) f -> jax_fallback d f = Ok g -> g = dsem d f.
Proof.
  intros W S. destruct d as [a|a|b sh w|sh v]; cbn [jax_fallback dsem dwf d_dom] in *.
  - intros H. apply bind_ok in H as (fs & Hfs & [= <-]).
    assert (E : fs = ffo_list a). { unfold factorize_first_order, composite_of in Hfs. fold (ffo_list a) in Hfs. destruct (ffo_list a); [discriminate|now injection Hfs]. }
    subst fs. now apply ffo_value.
  - discriminate.
  - destruct (length sh <=? 1)%nat; [|discriminate]. intros [= <-]. extensionality x. unfold rsum, total. f_equal. apply map_ext. intros i. now rewrite !jvp_unit.
  - intros [= <-]. extensionality x. now apply jvp_total.
Qed.
Lemma diff_fn d f g : dwf d -> fwf f -> fsm f -> (in_shape f, out_shape f) = (d_dom d, []) ->
  diffop_call (call n) d f = Ok g -> is_fn (d_dom d, []) (osem (ODiff d) (feval f)) g.
Proof.
  intros W Wf Sf E. unfold diffop_call. destruct (handles_constants d && is_constant_fn f) eqn:C.
  - destruct (negb _); [discriminate|]. destruct (negb _); [discriminate|]. intros [= <-]. apply zero_fn; [exact W|].
    apply andb_true_iff in C as [_ C]. destruct f; try discriminate; cbn; eauto.
  - assert (O : d_order0 d = false) by (destruct d; cbn in *; try reflexivity; apply Nat.eqb_neq; tauto). rewrite O.
    unfold lindiffop_call. intros H. apply or_else_ok in H as [H|H].
    + unfold call_no_jax in H. apply or_else_ok in H as [H|H]; [now apply base_fn|].
      destruct (is_partial d); [discriminate|]. apply bind_ok in H as (L & HL & H).
      destruct (to_sum_ok d L W HL) as (WL & EI & EO & V). rewrite <- EO. eapply is_fn_ext; [|apply (IH L f g); auto; congruence].
      intros x k _. apply V.
    + destruct (negb _); [discriminate|]. destruct (negb _); [discriminate|]. apply bind_ok in H as (h & Hh & [= <-]).
      injection E as E1 E2. assert (S : smooth (d_dom d) (fun x => feval f x [])) by (rewrite <- E1; now apply feval_smooth).
      apply jax_fn in Hh; [|exact W|exact S]. subst h. split; [constructor|]. split; [|split; [reflexivity|reflexivity]].
      apply fsm_other. now apply dsem_smooth.
Qed.
Lemma sum_fold io f Ls a V g : (forall M, In M Ls -> wfo M /\ o_in M = (in_shape f, out_shape f) /\ o_out M = io) -> fwf f -> fsm f ->
  is_fn io V a -> fold_left (fun acc M => bind acc (fun a => bind (call n M f) (fun b => fn_add a b))) Ls (Ok a) = Ok g ->
  is_fn io (fun x k => V x k + total (map (fun M => osem M (feval f) x k) Ls)) g.
Proof.
  intros HL Wf Sf. revert a V. induction Ls as [|M Ls IHL]; intros a V Ha H.
  - injection H as <-. revert Ha. apply is_fn_ext. intros. unfold total. cbn. ring.
  - cbn [fold_left bind] in H. destruct (bind (call n M f) (fun b => fn_add a b)) as [c|e] eqn:E.
    + apply bind_ok in E as (b & Hb & Hc). destruct (HL M (or_introl eq_refl)) as (WM & IM & OM).
      assert (Fb : is_fn io (osem M (feval f)) b) by (rewrite <- OM; apply IH; auto).
      pose proof (add_fn _ _ _ _ _ _ Ha Fb Hc) as Fc.
      eapply is_fn_ext; [|apply (IHL (fun M HM => HL M (or_intror HM)) c _ Fc H)]. intros. unfold total. cbn. ring.
    + exfalso. clear - H. induction Ls as [|M' Ls IHL]; [discriminate|]. now apply IHL.
Qed.
Lemma comp_right Ls f : comp_call (call n) Ls f = fold_right (fun M acc => bind acc (fun h => call n M h)) (Ok f) Ls.
Proof. unfold comp_call. rewrite <- (fold_left_rev_right (fun M acc => bind acc (fun h => call n M h))). now rewrite rev_involutive. Qed.
Lemma comp_fn L Ls : wfo (OComp (L :: Ls)) -> forall f g, fwf f -> fsm f -> (in_shape f, out_shape f) = o_in (OComp (L :: Ls)) ->
  comp_call (call n) (L :: Ls) f = Ok g -> is_fn (o_out L) (osem (OComp (L :: Ls)) (feval f)) g.
Proof.
  revert L. induction Ls as [|M Ls IHL]; intros L W f g Wf Sf E H; rewrite comp_right in H; cbn [fold_right bind] in H.
  - inversion W; subst. apply (IH L f g); auto.
  - inversion W as [| | | | |? ? ? WL W2 EL]; subst.
    assert (H' : bind (comp_call (call n) (M :: Ls) f) (fun h => call n L h) = Ok g) by (rewrite comp_right; exact H).
    apply bind_ok in H' as (h & Hh & Hg).
    pose proof (IHL M W2 f h Wf Sf E Hh) as Fh. pose proof Fh as (Wh & Sh & Eh & Vh).
    eapply is_fn_ext; [|apply (IH L h g); auto; congruence].
    intros x k Hk. change (osem L (feval h) x k = osem L (osem (OComp (M :: Ls)) (feval f)) x k). apply osem_ext; [exact WL| |exact Hk].
    intros y j Hj. apply Vh. now rewrite <- EL.
Qed.
End Step.

Theorem call_sound n L f g : wfo L -> fwf f -> fsm f -> (in_shape f, out_shape f) = o_in L -> call n L f = Ok g ->
  is_fn (o_out L) (osem L (feval f)) g.
Proof.
  revert L f g. induction n as [|n IH]; intros L f g W Wf Sf E H; [discriminate|].
  destruct W as [dom cod|d Hd|s L W|L Ls W Hs|L W|L M Ls W W2 EL]; cbn [call] in H.
  - unfold id_call in H. destruct (negb _); [discriminate|]. destruct (negb _); [discriminate|]. injection H as <-.
    split; [exact Wf|]. split; [exact Sf|]. split; [exact E|reflexivity].
  - now apply (diff_fn n IH d f g).
  - apply bind_ok in H as (h & Hh & [= <-]). apply (scale_fn (o_out L) (osem L (feval f))). now apply IH.
  - cbn [sum_call] in H. destruct (call n L f) as [a|e] eqn:Ea.
    + assert (Fa : is_fn (o_out L) (osem L (feval f)) a) by (apply IH; auto; apply W; now left).
      apply (sum_fold n IH (o_out L) f Ls a (osem L (feval f)) g) in H; auto.
      intros M HM. destruct (Hs M (or_intror HM)) as [Hi Ho]. split; [apply W; now right|]. split; [rewrite Hi; symmetry; exact E|exact Ho].
    + exfalso. clear - H. induction Ls as [|M' Ls IHL]; [discriminate|]. now apply IHL.
  - apply (comp_fn n IH L []) in H; auto. now constructor.
  - apply (comp_fn n IH L (M :: Ls)) in H; auto. now constructor.
Qed.
