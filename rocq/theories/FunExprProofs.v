(** Lemmas about function arithmetic. *)
From Coq Require Import List Reals Lra Lia Bool Arith.
From Coquelicot Require Import Coquelicot.
From Verif Require Import Base PolyModel PolySpec PolyProofs PolyClassModel PolyCalc NdArray
  FunExprModel FunExprSpec.
Import ListNotations.
Open Scope R_scope.

Definition is_sum (f : fn) : bool := match f with FSum _ => true | _ => false end.
Definition is_scaled (f : fn) : bool := match f with FScaled _ _ => true | _ => false end.

(** Well-formed objects: what the constructors can produce.  Sums are flat and
    of homogeneous shape, scalar factors are not nested. *)
Inductive fwf : fn -> Prop :=
| wf_other i o g : fwf (FOther i o g)
| wf_const i o v : fwf (FConst i o v)
| wf_zero i o : fwf (FZero i o)
| wf_poly p : py_valid p -> fwf (FPoly p)
| wf_scaled c f : fwf f -> is_scaled f = false -> fwf (FScaled c f)
| wf_sum f fs i o :
    (forall g, In g (f :: fs) -> fwf g /\ is_sum g = false /\ in_shape g = i /\ out_shape g = o) ->
    fwf (FSum (f :: fs)).

Lemma reduce_add_fold l : reduce_add l = fold_right Rplus 0 l.
Proof.
  destruct l as [|v l]; [reflexivity|]. cbn.
  assert (W : forall a, fold_left Rplus l a = a + fold_right Rplus 0 l).
  { induction l as [|w l IH]; intros a; cbn; [ring|]. rewrite IH. ring. }
  apply W.
Qed.

Definition summands (f : fn) : list fn := match f with FSum gs => gs | _ => [f] end.

Lemma summands_value f x k : feval f x k = fold_right Rplus 0 (map (fun g => feval g x k) (summands f)).
Proof. destruct f; cbn; try ring. apply reduce_add_fold. Qed.

Lemma fold_right_Rplus_app l1 l2 : fold_right Rplus 0 (l1 ++ l2) = fold_right Rplus 0 l1 + fold_right Rplus 0 l2.
Proof. induction l1 as [|v l IH]; cbn; [ring|]. rewrite IH. ring. Qed.

Lemma summands_wf f : fwf f -> forall g, In g (summands f) ->
  fwf g /\ is_sum g = false /\ in_shape g = in_shape f /\ out_shape g = out_shape f.
Proof.
  intros H g Hg. destruct H as [i o v|i o v|i o|p Hp|c f Hf Hs|f fs i o H]; cbn [summands] in Hg;
    try (destruct Hg as [<-|[]]; repeat split; try reflexivity; now constructor).
  destruct (H g Hg) as (H1 & H2 & H3 & H4). destruct (H f (or_introl eq_refl)) as (_ & _ & H5 & H6).
  cbn. rewrite H3, H4, H5, H6. auto.
Qed.

Lemma summands_nonempty f : fwf f -> summands f <> [].
Proof. intros H. destruct H; discriminate. Qed.

Lemma jax_sum_ok a b : fwf a -> fwf b -> in_shape b = in_shape a -> out_shape b = out_shape a ->
  exists f, jax_sum a b = Ok f /\ fwf f /\ in_shape f = in_shape a /\ out_shape f = out_shape a /\
    forall x k, feval f x k = feval a x k + feval b x k.
Proof.
  intros Ha Hb Hi Ho. unfold jax_sum. rewrite Hi, Ho, !shape_eqb_refl. cbn [negb].
  assert (E : expand_summands [a; b] = summands a ++ summands b).
  { unfold expand_summands. cbn. now rewrite app_nil_r. }
  rewrite E. exists (FSum (summands a ++ summands b)). split; [reflexivity|].
  assert (W : forall g, In g (summands a ++ summands b) ->
     fwf g /\ is_sum g = false /\ in_shape g = in_shape a /\ out_shape g = out_shape a).
  { intros g Hg. apply in_app_or in Hg. destruct Hg as [Hg|Hg].
    - apply summands_wf; assumption.
    - destruct (summands_wf b Hb g Hg) as (H1 & H2 & H3 & H4). rewrite H3, H4. auto. }
  pose proof (summands_nonempty a Ha) as Hne.
  destruct (summands a) as [|f0 fs0] eqn:Es; [congruence|]. cbn [app] in *.
  split; [now apply (wf_sum _ _ (in_shape a) (out_shape a))|].
  destruct (W f0 (or_introl eq_refl)) as (_ & _ & H3 & H4).
  split; [cbn; exact H3|]. split; [cbn; exact H4|].
  intros x k. rewrite (summands_value (FSum _)). rewrite (summands_value a), (summands_value b), Es.
  cbn [summands]. change (f0 :: fs0 ++ summands b) with ((f0 :: fs0) ++ summands b).
  rewrite map_app. apply fold_right_Rplus_app.
Qed.

Lemma jax_sum_err a b : in_shape b <> in_shape a \/ out_shape b <> out_shape a ->
  jax_sum a b = Err AssertionError.
Proof.
  intros H. unfold jax_sum. destruct (shape_eqb_spec (in_shape b) (in_shape a)); cbn [negb]; [|reflexivity].
  destruct (shape_eqb_spec (out_shape b) (out_shape a)); cbn [negb]; [|reflexivity]. tauto.
Qed.

Lemma poly_add_constant_ok p o v : py_valid p -> o = [] ->
  exists f, poly_add_constant p o v = Ok f /\ fwf f /\ in_shape f = [] /\ out_shape f = [] /\
    forall x k, valid_index [] k -> feval f x k = py_eval p (x []) + v k.
Proof.
  intros Hp ->. eexists. split; [reflexivity|]. split; [|split; [reflexivity|split; [reflexivity|]]].
  - constructor. unfold py_add_const, py_valid. discriminate.
  - intros x k Hk. apply valid_index_nil in Hk. subst k. cbn. apply py_eval_add_const. exact Hp.
Qed.

Lemma const_add_const_ok i o v1 v2 :
  exists f, const_add_const i o v1 i o v2 = Ok f /\ fwf f /\ in_shape f = i /\ out_shape f = o /\
    forall x k, valid_index o k -> feval f x k = v1 k + v2 k.
Proof.
  unfold const_add_const, np_add. rewrite shape_eqb_refl, broadcast_same. cbn.
  eexists. split; [reflexivity|]. split; [constructor|]. split; [reflexivity|]. split; [reflexivity|].
  intros x k Hk. cbn. now rewrite !operand_index_id.
Qed.

Lemma add_zero_ok f : fwf f ->
  exists g, add_zero f (in_shape f) (out_shape f) = Ok g /\ fwf g /\ in_shape g = in_shape f /\ out_shape g = out_shape f /\
    forall x k, feval g x k = feval f x k + 0.
Proof.
  intros H. unfold add_zero. rewrite !shape_eqb_refl. cbn. exists f. repeat split; try assumption. intros. ring.
Qed.

Lemma py_add_valid p q : py_valid p -> py_valid q -> py_valid (py_add p q).
Proof.
  intros _ _. unfold py_add. destruct p, q; unfold py_valid; cbn [float_coeffs]; try apply (wf_mkpoly RF).
  apply py_valid_rat. apply (wf_mkpoly QcF).
Qed.
Lemma py_sub_valid p q : py_valid p -> py_valid q -> py_valid (py_sub p q).
Proof.
  intros _ _. unfold py_sub. destruct p, q; unfold py_valid; cbn [float_coeffs]; try apply (wf_mkpoly RF).
  apply py_valid_rat. apply (wf_mkpoly QcF).
Qed.
Lemma py_neg_valid p : py_valid p -> py_valid (py_neg p).
Proof.
  intros _. unfold py_neg. destruct p; unfold py_valid; cbn [float_coeffs]; try apply (wf_mkpoly RF).
  apply py_valid_rat. apply (wf_mkpoly QcF).
Qed.
Lemma py_scale_valid s p : py_valid p -> py_valid (py_scale s p).
Proof.
  intros _. unfold py_scale. destruct p, s; unfold py_valid; cbn [float_coeffs]; try apply (wf_mkpoly RF);
  apply py_valid_rat; apply (wf_mkpoly QcF).
Qed.

Lemma fn_add_ok a b : fwf a -> fwf b -> in_shape a = in_shape b -> out_shape a = out_shape b ->
  exists f, fn_add a b = Ok f /\ fwf f /\ in_shape f = in_shape a /\ out_shape f = out_shape a /\
    forall x k, valid_index (out_shape a) k -> feval f x k = feval a x k + feval b x k.
Proof.
  intros Ha Hb Hi Ho.
  assert (J : exists f, jax_sum a b = Ok f /\ fwf f /\ in_shape f = in_shape a /\ out_shape f = out_shape a /\
    forall x k, valid_index (out_shape a) k -> feval f x k = feval a x k + feval b x k).
  { destruct (jax_sum_ok a b Ha Hb (eq_sym Hi) (eq_sym Ho)) as (f & H1 & H2 & H3 & H4 & H5). exists f. auto 10. }
  assert (Z : forall i o, b = FZero i o -> exists f, add_zero a i o = Ok f /\ fwf f /\ in_shape f = in_shape a /\ out_shape f = out_shape a /\
    forall x k, valid_index (out_shape a) k -> feval f x k = feval a x k + feval b x k).
  { intros i o ->. cbn in Hi, Ho. destruct (add_zero_ok a Ha) as (f & H1 & H2 & H3 & H4 & H5).
    rewrite Hi, Ho in H1. exists f. auto 10. }
  destruct a as [i o g|i o v|i o|p|c a|fs].
  - destruct b; try exact J. apply (Z _ _ eq_refl).
  - destruct b as [i' o' g|i' o' v'|i' o'|q|c b|fs]; try exact J.
    + cbn in Hi, Ho. subst i' o'. apply const_add_const_ok.
    + apply (Z _ _ eq_refl).
  - destruct b as [i' o' g|i' o' v'|i' o'|q|c b|fs]; try exact J.
    + cbn in Hi, Ho. subst i' o'. apply const_add_const_ok.
    + apply (Z _ _ eq_refl).
  - inversion Ha; subst. destruct b as [i' o' g|i' o' v'|i' o'|q|c b|fs]; try exact J.
    + apply poly_add_constant_ok; [assumption|symmetry; exact Ho].
    + apply (poly_add_constant_ok p o' (fun _ => 0)); [assumption|symmetry; exact Ho].
    + inversion Hb; subst. exists (FPoly (py_add p q)). split; [reflexivity|].
      split; [constructor; now apply py_add_valid|]. split; [reflexivity|]. split; [reflexivity|].
      intros x k _. cbn. now apply py_eval_add.
  - destruct b; try exact J. apply (Z _ _ eq_refl).
  - destruct b; try exact J. apply (Z _ _ eq_refl).
Qed.

Lemma fn_scale_ok s a : fwf a ->
  fwf (fn_scale s a) /\ in_shape (fn_scale s a) = in_shape a /\ out_shape (fn_scale s a) = out_shape a /\
  forall x k, feval (fn_scale s a) x k = scalar_value s * feval a x k.
Proof.
  intros Ha. destruct a as [i o g|i o v|i o|p|c a|fs]; cbn [fn_scale].
  - repeat split. constructor; [exact Ha|reflexivity].
  - repeat split. constructor.
  - repeat split. + constructor. + intros. cbn. ring.
  - inversion Ha; subst. repeat split. + constructor. now apply py_scale_valid.
    + intros. cbn. now apply py_eval_scale.
  - inversion Ha; subst. repeat split. + now constructor. + intros. cbn. ring.
  - repeat split. constructor; [exact Ha|reflexivity].
Qed.

Lemma fn_neg_ok a : fwf a ->
  fwf (fn_neg a) /\ in_shape (fn_neg a) = in_shape a /\ out_shape (fn_neg a) = out_shape a /\
  forall x k, feval (fn_neg a) x k = - feval a x k.
Proof.
  intros Ha.
  assert (G : fwf (fn_scale (SFloat (-1)) a) /\ in_shape (fn_scale (SFloat (-1)) a) = in_shape a /\
     out_shape (fn_scale (SFloat (-1)) a) = out_shape a /\
     forall x k, feval (fn_scale (SFloat (-1)) a) x k = - feval a x k).
  { destruct (fn_scale_ok (SFloat (-1)) a Ha) as (H1 & H2 & H3 & H4). repeat split; try assumption.
    intros. rewrite H4. cbn. ring. }
  destruct a; try exact G. inversion Ha; subst. repeat split. + constructor. now apply py_neg_valid.
  + intros. cbn. now apply py_eval_neg.
Qed.

Lemma fn_sub_ok a b : fwf a -> fwf b -> in_shape a = in_shape b -> out_shape a = out_shape b ->
  exists f, fn_sub a b = Ok f /\ fwf f /\ in_shape f = in_shape a /\ out_shape f = out_shape a /\
    forall x k, valid_index (out_shape a) k -> feval f x k = feval a x k - feval b x k.
Proof.
  intros Ha Hb Hi Ho.
  destruct (fn_neg_ok b Hb) as (N1 & N2 & N3 & N4).
  assert (G : exists f, fn_add a (fn_neg b) = Ok f /\ fwf f /\ in_shape f = in_shape a /\ out_shape f = out_shape a /\
    forall x k, valid_index (out_shape a) k -> feval f x k = feval a x k - feval b x k).
  { destruct (fn_add_ok a (fn_neg b) Ha N1) as (f & H1 & H2 & H3 & H4 & H5); [congruence|congruence|].
    exists f. repeat split; try assumption. intros x k Hk. rewrite H5 by exact Hk. rewrite N4. ring. }
  destruct a; try exact G. destruct b; try exact G.
  inversion Ha; inversion Hb; subst. eexists. split; [reflexivity|].
  split; [constructor; now apply py_sub_valid|]. split; [reflexivity|]. split; [reflexivity|].
  intros x k _. cbn. now apply py_eval_sub.
Qed.

Lemma build_ok e i o : (forall f, In f (leaves e) -> fwf f /\ in_shape f = i /\ out_shape f = o) ->
  exists f, build e = Ok f /\ fwf f /\ in_shape f = i /\ out_shape f = o /\
    forall x k, valid_index o k -> feval f x k = meaning e x k.
Proof.
  induction e as [f|a IHa b IHb|a IHa b IHb|a IHa|s a IHa]; intros H; cbn [leaves build meaning] in *.
  - destruct (H f (or_introl eq_refl)) as (H1 & H2 & H3). exists f. repeat split; auto.
  - destruct IHa as (f & Hf & Wf & If & Of & Ef); [intros; apply H; apply in_or_app; auto|].
    destruct IHb as (g & Hg & Wg & Ig & Og & Eg); [intros; apply H; apply in_or_app; auto|].
    rewrite Hf, Hg. cbn [bind].
    destruct (fn_add_ok f g Wf Wg) as (h & H1 & H2 & H3 & H4 & H5); [congruence|congruence|].
    exists h. rewrite H3, H4. repeat split; try assumption.
    intros x k Hk. rewrite H5 by (rewrite Of; exact Hk). rewrite Ef, Eg by exact Hk. reflexivity.
  - destruct IHa as (f & Hf & Wf & If & Of & Ef); [intros; apply H; apply in_or_app; auto|].
    destruct IHb as (g & Hg & Wg & Ig & Og & Eg); [intros; apply H; apply in_or_app; auto|].
    rewrite Hf, Hg. cbn [bind].
    destruct (fn_sub_ok f g Wf Wg) as (h & H1 & H2 & H3 & H4 & H5); [congruence|congruence|].
    exists h. rewrite H3, H4. repeat split; try assumption.
    intros x k Hk. rewrite H5 by (rewrite Of; exact Hk). rewrite Ef, Eg by exact Hk. reflexivity.
  - destruct IHa as (f & Hf & Wf & If & Of & Ef); [exact H|]. rewrite Hf. cbn [bind].
    destruct (fn_neg_ok f Wf) as (H1 & H2 & H3 & H4). exists (fn_neg f). rewrite H2, H3.
    repeat split; try assumption. intros x k Hk. rewrite H4, Ef by exact Hk. reflexivity.
  - destruct IHa as (f & Hf & Wf & If & Of & Ef); [exact H|]. rewrite Hf. cbn [bind].
    destruct (fn_scale_ok s f Wf) as (H1 & H2 & H3 & H4). exists (fn_scale s f). rewrite H2, H3.
    repeat split; try assumption. intros x k Hk. rewrite H4, Ef by exact Hk. reflexivity.
Qed.

(** Operands of different shapes: rejected unless both are constants or the
    left one is a polynomial and the right one a constant. *)
Definition is_constant (f : fn) : bool := match f with FConst _ _ _ | FZero _ _ => true | _ => false end.
Definition is_zero (f : fn) : bool := match f with FZero _ _ => true | _ => false end.
Definition is_poly (f : fn) : bool := match f with FPoly _ => true | _ => false end.

Lemma add_zero_err f i o : i <> in_shape f \/ o <> out_shape f -> add_zero f i o = Err AssertionError.
Proof.
  intros H. unfold add_zero. destruct (shape_eqb_spec i (in_shape f)); cbn [negb]; [|reflexivity].
  destruct (shape_eqb_spec o (out_shape f)); cbn [negb]; [|reflexivity]. tauto.
Qed.

Lemma fn_add_shape_error a b :
  (in_shape b <> in_shape a \/ out_shape b <> out_shape a) ->
  (is_constant b = true -> is_zero b = true /\ is_poly a = false \/ (is_poly a = false /\ is_constant a = false)) ->
  fn_add a b = Err AssertionError.
Proof.
  intros Hs Hc. pose proof (jax_sum_err a b Hs) as J.
  destruct a as [i o g|i o v|i o|p|c a|fs], b as [i' o' g'|i' o' v'|i' o'|q|c' b|fs']; cbn [fn_add]; try exact J;
   try (apply add_zero_err; exact Hs);
   try (destruct (Hc eq_refl) as [[H1 H2]|[H1 H2]]; discriminate).
  destruct Hs as [Hs|Hs]; exfalso; apply Hs; reflexivity.
Qed.

(** Two constants: input shapes must agree, outputs are broadcast. *)
Lemma const_add_broadcast i o1 v1 o2 v2 o : broadcast_shapes o1 o2 = Ok o ->
  fn_add (FConst i o1 v1) (FConst i o2 v2) =
  Ok (FConst i o (fun k => v1 (operand_index o1 k) + v2 (operand_index o2 k))).
Proof. intros H. cbn. unfold const_add_const, np_add. rewrite shape_eqb_refl, H. reflexivity. Qed.
