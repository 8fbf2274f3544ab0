(** Proofs about differential operators given by coefficients. *)
From Coq Require Import List Reals Lra Lia Bool Arith ZArith FunctionalExtensionality.
From Coquelicot Require Import Coquelicot.
From Verif Require Import Base NdArray FunExprModel FunExprProofs DiffopModel DiffopSpec DiffopProofs
  LfoModel LfoSpec LfoSmooth LfoProofs LfoSound LfoTotal ShapedModel KernelModel KernelSpec GenModel GenSpec.
Import ListNotations.
Open Scope R_scope.

(** ** Selected outputs *)
Lemma picked_range cod i : Forall2 in_range i cod -> picked cod i = Ok [].
Proof.
  induction 1 as [|z n i cod [A B] H IH]; [reflexivity|]. cbn [picked].
  rewrite (proj2 (Z.leb_le _ _) A), (proj2 (Z.ltb_lt _ _) B). exact IH.
Qed.
Lemma gen_terms_ok c : coeffs_ok c ->
  gen_terms c = Ok (map (fun '(i, inn) => map (fun '(a, y) => Term y a i) inn) (c_dict c)).
Proof.
  intros [N H]. unfold gen_terms.
  assert (T : forall i inn, In (i, inn) (c_dict c) -> mapM (gen_term (c_cod c) i) inn = Ok (map (fun '(a, y) => Term y a i) inn)).
  { intros i inn Hi. destruct (H i inn Hi) as (_ & R & _). clear - R. induction inn as [|[a y] inn IH]; [reflexivity|].
    cbn [mapM]. assert (E : gen_term (c_cod c) i (a, y) = Ok (Term y a i)).
    { unfold gen_term. destruct i as [|z i]; [reflexivity|]. unfold select_cod. rewrite (picked_range _ _ R). reflexivity. }
    rewrite E. cbn [bind]. rewrite IH. reflexivity. }
  assert (G : forall d, (forall x, In x d -> In x (c_dict c)) ->
     mapM (fun '(i, inn) => bind (mapM (gen_term (c_cod c) i) inn) summands_of) d = Ok (map (fun '(i, inn) => map (fun '(a, y) => Term y a i) inn) d)).
  { induction d as [|[i inn] d IH]; intros I; [reflexivity|]. cbn [mapM]. rewrite (T i inn) by (apply I; now left). cbn [bind].
    destruct (H i inn (I _ (or_introl eq_refl))) as (Ni & _). unfold summands_of at 1. destruct inn as [|e inn]; [congruence|]. cbn [map].
    destruct e as [a y]. cbn [bind]. rewrite IH by (intros; apply I; now right). reflexivity. }
  rewrite (G (c_dict c)) by auto. cbn [bind]. unfold summands_of. destruct (c_dict c) as [|e d]; [congruence|]. reflexivity.
Qed.
(** The operator as a sum of sums. *)
Definition gsum (pdop : mi -> dop) (c : coeffs RF) : lfo :=
  OSum (map (fun '(_, inn) => OSum (map (fun '(a, x) => OScaled x (ODiff (pdop a))) inn)) (c_dict c)).
Lemma shapes_refl p : shapes_eqb p p = true.
Proof. destruct (shapes_eqb_spec p p); congruence. Qed.
Lemma gsum_inner c i inn : coeffs_ok c -> In (i, inn) (c_dict c) ->
  mk_sum (map (fun '(a, x) => o_scale x (ODiff (DPartialNoJax a))) inn) = Ok (OSum (map (fun '(a, x) => OScaled x (ODiff (DPartialNoJax a))) inn)) /\
  o_in (OSum (map (fun '(a, x) => OScaled x (ODiff (DPartialNoJax a))) inn)) = (c_dom c, []) /\
  o_out (OSum (map (fun '(a, x) => OScaled x (ODiff (DPartialNoJax a))) inn)) = (c_dom c, []).
Proof.
  intros [_ H] I. destruct (H i inn I) as (N & _ & A).
  assert (M : map (fun '(a, x) => o_scale x (ODiff (DPartialNoJax a))) inn = map (fun '(a, x) => OScaled x (ODiff (DPartialNoJax a))) inn)
    by (apply map_ext; intros [a x]; reflexivity).
  rewrite M. clear M. destruct inn as [|[a0 y0] inn]; [congruence|]. destruct (A a0 y0 (or_introl eq_refl)) as [_ E0].
  split; [|split; cbn; now rewrite E0].
  unfold mk_sum. cbn [map]. match goal with |- context [if ?b then _ else _] => assert (B : b = true) end.
  { apply forallb_forall. intros L HL. change (In L (map (fun '(a, x) => OScaled x (ODiff (DPartialNoJax a))) ((a0, y0) :: inn))) in HL.
    apply in_map_iff in HL as ([a x] & <- & Ha). destruct (A a x Ha) as [_ Ea]. cbn. rewrite Ea, E0. now rewrite !shapes_refl. }
  now rewrite B.
Qed.
Lemma gen_lfo_ok c : coeffs_ok c -> gen_lfo DPartialNoJax c = Ok (gsum DPartialNoJax c) /\
  o_in (gsum DPartialNoJax c) = (c_dom c, []) /\ o_out (gsum DPartialNoJax c) = (c_dom c, []).
Proof.
  intros O. assert (N := proj1 O). unfold gen_lfo.
  assert (G : forall d, (forall x, In x d -> In x (c_dict c)) ->
     mapM (fun '(_, inn) => mk_sum (map (fun '(a, x) => o_scale x (ODiff (DPartialNoJax a))) inn)) d =
     Ok (map (fun '(_, inn) => OSum (map (fun '(a, x) => OScaled x (ODiff (DPartialNoJax a))) inn)) d)).
  { induction d as [|[i inn] d IH]; intros I; [reflexivity|]. cbn [mapM].
    destruct (gsum_inner c i inn O (I _ (or_introl eq_refl))) as (-> & _). cbn [bind]. rewrite IH by (intros; apply I; now right). reflexivity. }
  rewrite (G (c_dict c)) by auto. cbn [bind]. unfold gsum.
  assert (S : forall L, In L (map (fun '(_, inn) => OSum (map (fun '(a, x) => OScaled x (ODiff (DPartialNoJax a))) inn)) (c_dict c)) ->
     o_in L = (c_dom c, []) /\ o_out L = (c_dom c, [])).
  { intros L HL. apply in_map_iff in HL as ([i inn] & <- & Hi). exact (proj2 (gsum_inner c i inn O Hi)). }
  assert (NE : map (fun '(_, inn) => OSum (map (fun '(a, x) => OScaled x (ODiff (DPartialNoJax a))) inn)) (c_dict c) <> []) by (destruct (c_dict c); [congruence|discriminate]).
  revert S NE. generalize (map (fun '(_, inn) => OSum (map (fun '(a, x) => OScaled x (ODiff (DPartialNoJax a))) inn)) (c_dict c)).
  intros Ls S NE. destruct Ls as [|L Ls]; [congruence|].
  destruct (S L (or_introl eq_refl)) as [Si So].
  split; [|split; cbn; assumption]. unfold mk_sum.
  match goal with |- context [if ?b then _ else _] => assert (B : b = true) end.
  { apply forallb_forall. intros M HM. destruct (S M HM) as [-> ->]. now rewrite Si, So, !shapes_refl. }
  now rewrite B.
Qed.
Lemma gsum_wfo c : coeffs_ok c -> multi_indices proper c -> wfo (gsum DPartialNoJax c).
Proof.
  intros O P. destruct (gen_lfo_ok c O) as (E & _). unfold gen_lfo in E. apply bind_ok in E as (Ls & HLs & E).
  apply (mk_sum_wf _ _ E). intros M HM. apply mapM_ok in HLs.
  assert (G : forall d Ls, Forall2 (fun e b => (let '(_, inn) := e in mk_sum (map (fun '(a, x) => o_scale x (ODiff (DPartialNoJax a))) inn)) = Ok b) d Ls ->
     (forall x, In x d -> In x (c_dict c)) -> forall M, In M Ls -> wfo M).
  { clear - O P. induction 1 as [|[i inn] L d Ls H F IH]; intros I M HM; [destruct HM|]. destruct HM as [<-|HM]; [|apply IH; auto; intros; apply I; now right].
    apply (mk_sum_wf _ _ H). intros K HK. apply in_map_iff in HK as ([a x] & <- & Ha). cbn. constructor. constructor. cbn.
    destruct (proj2 O i inn (I _ (or_introl eq_refl))) as (_ & _ & A). split; [exact (proj1 (A a x Ha))|]. exact (P i inn a x (I _ (or_introl eq_refl)) Ha). }
  now apply (G _ _ HLs (fun _ h => h)).
Qed.
Lemma output_scalar i : Forall2 in_range i [] -> output_at [] i = [].
Proof. now inversion 1. Qed.
Lemma gsum_osem c F x k : coeffs_ok c -> c_cod c = [] -> osem (gsum DPartialNoJax c) F x k = csem c F x.
Proof.
  intros O E. unfold gsum, csem. cbn [osem]. rewrite map_map. f_equal. apply map_ext_in. intros [i inn] I. cbn [osem]. rewrite map_map.
  f_equal. apply map_ext. intros [a y]. cbn [osem dsem]. destruct (proj2 O i inn I) as (_ & R & _). rewrite E in R. rewrite E, (output_scalar i R). reflexivity.
Qed.
Lemma gsum_ksem c f x : coeffs_ok c -> c_cod c = [] -> ksem (gsum DPartialNoJax c) f x = csem c (fun z _ => f z) x.
Proof.
  intros O E. unfold gsum, csem. cbn [ksem]. rewrite map_map. f_equal. apply map_ext. intros [i inn]. cbn [ksem]. rewrite map_map.
  f_equal. apply map_ext. intros [a y]. reflexivity.
Qed.

(** ** On functions *)
Lemma gen_scaled_diverges n c s f : gen_call n c (FScaled s f) = Err RecursionError.
Proof. induction n as [|n IH]; [reflexivity|]. cbn [gen_call]. rewrite IH. reflexivity. Qed.
Lemma gen_jax_ok c f : coeffs_ok c -> c_cod c = [] -> multi_indices proper c -> smooth (c_dom c) (fun x => f x []) ->
  exists g, gen_jax c f = Ok g /\ forall x, g x = csem c f x.
Proof.
  intros O E P S. unfold gen_jax. rewrite (gen_terms_ok c O). cbn [bind].
  set (tm := fun t : term => match t_idx t with
          | [] => if (mi_order (t_mi t) =? 0)%nat then Err TypeError
                  else bind (jax_fallback (DPartial (t_mi t)) (fun x => f x [])) (fun g => Ok (fun x => t_scalar t * g x))
          | _ => Err NotImplementedError
          end).
  assert (T : forall i inn, In (i, inn) (c_dict c) ->
     mapM tm (map (fun '(a, y) => Term y a i) inn) = Ok (map (fun '(a, y) => fun x => y * pderiv a (fun z => f z []) x) inn)).
  { intros i inn I. destruct (proj2 O i inn I) as (_ & R & A). rewrite E in R. inversion R; subst i.
    assert (A' : forall a y, In (a, y) inn -> mi_wf a /\ mi_shape a = c_dom c /\ proper a).
    { intros a y Ha. destruct (A a y Ha). split; [assumption|]. split; [assumption|]. exact (P [] inn a y I Ha). }
    clear - S A'. induction inn as [|[a y] inn IH]; [reflexivity|]. cbn [map mapM]. destruct (A' a y (or_introl eq_refl)) as (W & Es & Oa).
    assert (Q : tm (Term y a []) = Ok (fun x => y * pderiv a (fun z => f z []) x)).
    { unfold tm. cbn [t_idx t_mi t_scalar]. rewrite (proj2 (Nat.eqb_neq _ _) Oa).
      destruct (jax_total (DPartial a) (fun x => f x []) (conj W Oa)) as [g Hg]. rewrite Hg. cbn [bind].
      apply jax_fn in Hg; [|now split|cbn [d_dom]; now rewrite Es]. now subst g. }
    rewrite Q. cbn [bind]. rewrite IH; [reflexivity|]. intros b z Hb. exact (A' b z (or_intror Hb)). }
  assert (G : forall d, (forall x, In x d -> In x (c_dict c)) ->
     mapM (mapM tm) (map (fun '(i, inn) => map (fun '(a, y) => Term y a i) inn) d) =
     Ok (map (fun '(_, inn) => map (fun '(a, y) => fun x => y * pderiv a (fun z => f z []) x) inn) d)).
  { induction d as [|[i inn] d IH]; intros I; [reflexivity|]. cbn [map mapM]. rewrite (T i inn) by (apply I; now left). cbn [bind].
    rewrite IH by (intros; apply I; now right). reflexivity. }
  rewrite (G (c_dict c)) by auto. cbn [bind]. eexists. split; [reflexivity|]. intros x. unfold csem, rsum, total.
  rewrite map_map. f_equal. apply map_ext_in. intros [i inn] I. rewrite map_map. f_equal. apply map_ext. intros [a y].
  destruct (proj2 O i inn I) as (_ & R & _). rewrite E in R. rewrite E, (output_scalar i R). reflexivity.
Qed.
Lemma gen_sound n c : coeffs_ok c -> c_cod c = [] -> multi_indices proper c ->
  forall f g b, fwf f -> fsm f -> in_shape f = c_dom c -> out_shape f = [] -> gen_call n c f = Ok (g, b) ->
  is_fn (c_dom c, []) (fun x _ => csem c (feval f) x) g.
Proof.
  intros O Ec P. destruct (gen_lfo_ok c O) as (EL & Ei & Eo). assert (W := gsum_wfo c O P).
  assert (V : forall F x k, osem (gsum DPartialNoJax c) F x k = csem c F x) by (intros; now apply gsum_osem).
  induction n as [|n IH]; [discriminate|]. intros f g b Wf Sf Hi Ho H. cbn [gen_call] in H. rewrite Ec in H.
  apply or_else_ok in H as [H|H]; [apply or_else_ok in H as [H|H]|].
  - destruct f as [i o h|i o v|i o|p|s f|fs]; try discriminate.
    + injection H as <- <-. split; [constructor|]. split; [apply fsm_zero|]. split; [reflexivity|]. intros x k _. rewrite <- (V (feval (FZero i o)) x k).
      change (feval (FZero i o)) with (fun (_ _ : array) => 0) || idtac. cbn [feval].
      pose proof (osem_zero _ W) as Z. transitivity (osem (gsum DPartialNoJax c) (fun _ _ => 0) x k); [now rewrite Z|reflexivity].
    + rewrite gen_scaled_diverges in H. discriminate.
    + apply bind_ok in H as (rs & Hrs & H). apply bind_ok in H as (h & Hh & [= <- <-]). apply mapM_ok in Hrs.
      inversion Wf as [| | | | |f0 fs0 i o HW]; subst.
      assert (G : forall f, In f (f0 :: fs0) -> fwf f /\ fsm f /\ in_shape f = c_dom c /\ out_shape f = []).
      { intros f Hf. destruct (HW f Hf) as (Hw & _ & Hi' & Ho'). destruct (HW f0 (or_introl eq_refl)) as (_ & _ & Hi0 & Ho0).
        split; [exact Hw|]. split; [exact (proj1 (fsm_sum _) Sf f Hf)|]. cbn in Hi, Ho. split; congruence. }
      assert (F2 : Forall2 (fun f h => is_fn (c_dom c, []) (fun x _ => csem c (feval f) x) h) (f0 :: fs0) (map fst rs)).
      { clear HW Wf Sf Hi Ho Hh h. induction Hrs as [|f [h b] fs hs Hfh Hhs IH2]; constructor; [|apply IH2; intros; apply G; now right].
        destruct (G f (or_introl eq_refl)) as (? & ? & ? & ?). now apply (IH f h b). }
      pose proof (jax_sum_of_ok _ (fun f => fun x (_ : index) => csem c (feval f) x) _ _ _ F2 Hh) as R. revert R. apply is_fn_ext.
      intros x k _. rewrite <- (V (feval (FSum (f0 :: fs0))) x k).
      assert (SM : forall f, In f (f0 :: fs0) -> vsmooth (o_in (gsum DPartialNoJax c)) (feval f)).
      { intros f Hf Oe. destruct (G f Hf) as (? & ? & Ef1 & Ef2). rewrite Ei. cbn. rewrite <- Ef1. now apply feval_smooth. }
      pose proof (f_equal (fun h => h x k) (osem_total _ W feval (f0 :: fs0) SM)) as T. cbn beta in T.
      transitivity (total (map (fun f => osem (gsum DPartialNoJax c) (feval f) x k) (f0 :: fs0))).
      { f_equal. apply map_ext. intros f. symmetry. apply V. }
      rewrite <- T. f_equal. extensionality y. extensionality j. symmetry. apply reduce_add_fold.
  - rewrite EL in H. cbn [bind] in H. apply bind_ok in H as (h & Hh & [= <- <-]).
    destruct (call_sound n _ f h W Wf Sf) as (A & B & C & D); [now rewrite Ei, Hi, Ho|exact Hh|]. rewrite Eo in C, D.
    split; [exact A|]. split; [exact B|]. split; [exact C|]. intros x k Hk. rewrite D by exact Hk. apply V.
  - destruct (negb _); [discriminate|]. destruct (negb _); [discriminate|].
    assert (S : smooth (c_dom c) (fun x => feval f x [])) by (rewrite <- Hi; now apply feval_smooth).
    destruct (gen_jax_ok c (feval f) O Ec P S) as (h & Hh & Vh). rewrite Hh in H. cbn [bind] in H. injection H as <- <-.
    split; [constructor|]. split; [|split; [reflexivity|intros x k _; apply Vh]]. apply fsm_other.
    assert (VS := osem_smooth _ W (feval f)). rewrite Ei, Eo in VS. replace (fun x => h x) with (fun x => osem (gsum DPartialNoJax c) (feval f) x []) by (extensionality x; now rewrite V, Vh).
    apply VS; [|reflexivity]. intros _. exact S.
Qed.
