(** Totality and failures of operators given by coefficients; covariance functions. *)
From Coq Require Import List Reals Lra Lia Bool Arith ZArith FunctionalExtensionality.
From Coquelicot Require Import Coquelicot.
From Verif Require Import Base NdArray PolyClassModel FunExprModel FunExprProofs DiffopModel DiffopSpec DiffopProofs
  LfoModel LfoSpec LfoSmooth LfoProofs LfoSound LfoTotal ShapedModel KernelModel KernelSpec KernelSmooth KernelSound FunctlAlg GenModel GenSpec GenProofs.
Import ListNotations.
Open Scope R_scope.

(** ** Sums of results *)
Section Fold.
Context {A B : Type} (f : A -> result B) (add : B -> B -> result B) (P : B -> Prop) (e : exn).
Hypothesis HP : forall a b, P a -> P b -> exists r, add a b = Ok r /\ P r.
Definition good (y : A) : Prop := exists r, f y = Ok r /\ P r.
Notation step := (fun acc y => bind acc (fun a => bind (f y) (fun b => add a b))).
Lemma fold_good l : (forall y, In y l -> good y) -> forall r, P r -> exists q, fold_left step l (Ok r) = Ok q /\ P q.
Proof.
  induction l as [|y l IH]; intros H r Pr; [exists r; now split|]. cbn [fold_left bind].
  destruct (H y (or_introl eq_refl)) as (b & -> & Pb). cbn [bind]. destruct (HP r b Pr Pb) as (q & -> & Pq).
  apply IH; [|exact Pq]. intros; apply H; now right.
Qed.
Lemma fold_err0 l : fold_left step l (Err e) = Err e.
Proof. induction l as [|y l IH]; [reflexivity|exact IH]. Qed.
Lemma fold_bad l : (forall y, In y l -> good y \/ f y = Err e) -> (exists y, In y l /\ f y = Err e) ->
  forall r, P r -> fold_left step l (Ok r) = Err e.
Proof.
  induction l as [|y l IH]; intros H [z [Hz Ez]] r Pr; [destruct Hz|]. cbn [fold_left bind].
  destruct (H y (or_introl eq_refl)) as [(b & Hb & Pb)|Hb].
  - rewrite Hb. cbn [bind]. destruct (HP r b Pr Pb) as (q & -> & Pq). apply IH; [intros; apply H; now right| |exact Pq].
    destruct Hz as [->|Hz]; [congruence|]. eauto.
  - rewrite Hb. apply fold_err0.
Qed.
Lemma reduce_good x l : (forall y, In y (x :: l) -> good y) -> exists q, fold_left step l (f x) = Ok q /\ P q.
Proof.
  intros H. destruct (H x (or_introl eq_refl)) as (r & -> & Pr). apply fold_good; [|exact Pr]. intros; apply H; now right.
Qed.
Lemma reduce_bad x l : (forall y, In y (x :: l) -> good y \/ f y = Err e) -> (exists y, In y (x :: l) /\ f y = Err e) ->
  fold_left step l (f x) = Err e.
Proof.
  intros H [z [Hz Ez]]. destruct (H x (or_introl eq_refl)) as [(r & Hr & Pr)|E]; [|rewrite E; apply fold_err0].
  rewrite Hr. apply fold_bad; [intros; apply H; now right| |exact Pr]. destruct Hz as [->|Hz]; [congruence|]. eauto.
Qed.
End Fold.

(** ** On functions: totality *)
Section Functions.
Variable c : coeffs RF.
Hypothesis O : coeffs_ok c.
Hypothesis Ec : c_cod c = [].

Lemma first_terms : exists i a y inn d, c_dict c = (i, (a, y) :: inn) :: d.
Proof.
  destruct (c_dict c) as [|[i inn] d] eqn:E; [now destruct (proj1 O)|]. destruct (proj2 O i inn) as (N & _); [rewrite E; now left|].
  destruct inn as [|[a y] inn]; [congruence|]. eauto 10.
Qed.
Lemma gsum_zeros n f : is_constant_fn f = true -> in_shape f = c_dom c -> out_shape f = [] ->
  call (S (S (S (S n)))) (gsum DPartialNoJax c) f = Ok (FZero (c_dom c) []).
Proof.
  intros C Hi Ho. unfold gsum. apply sum_zeros; [destruct first_terms as (i & a & y & inn & d & ->); discriminate|].
  intros L HL. apply in_map_iff in HL as ([i inn] & <- & HI). destruct (proj2 O i inn HI) as (N & _ & A).
  apply sum_zeros; [destruct inn; [now elim N|discriminate]|]. intros L HL. apply in_map_iff in HL as ([a x] & <- & Ha). destruct (A a x Ha) as (W & Es).
  change (call (S (S n)) (OScaled x (ODiff (DPartialNoJax a))) f) with (bind (call (S n) (ODiff (DPartialNoJax a)) f) (fun g => Ok (fn_scale (SFloat x) g))).
  rewrite nojax_const; [cbn; congruence|exact C|congruence|exact Ho].
Qed.
Lemma gsum_nojax n f : multi_indices proper c -> opaque_fn f = true -> in_shape f = c_dom c -> out_shape f = [] ->
  call (S (S (S (S n)))) (gsum DPartialNoJax c) f = Err NotImplementedError.
Proof.
  intros P Hf Hi Ho. unfold gsum. destruct first_terms as (i & a & y & inn & d & E). rewrite E. cbn [map]. apply sum_err. apply sum_err.
  change (call (S (S n)) (OScaled y (ODiff (DPartialNoJax a))) f) with (bind (call (S n) (ODiff (DPartialNoJax a)) f) (fun g => Ok (fn_scale (SFloat y) g))).
  destruct (proj2 O i ((a, y) :: inn)) as (_ & _ & A); [rewrite E; now left|]. destruct (A a y (or_introl eq_refl)) as (W & Es).
  rewrite nojax_opaque; auto; [|congruence]. apply (P i ((a, y) :: inn) a y); [rewrite E|]; now left.
Qed.
Lemma gen_const n f : is_constant_fn f = true -> in_shape f = c_dom c -> out_shape f = [] ->
  gen_call (5 + n) c f = Ok (FZero (c_dom c) [], false).
Proof.
  intros C Hi Ho. destruct (gen_lfo_ok c O) as (EL & _). change (5 + n)%nat with (S (S (S (S (S n))))).
  remember (S (S (S (S n)))) as m eqn:Em. cbn [gen_call]. destruct f; try discriminate; cbn [or_else]; [|reflexivity].
  rewrite Ec, EL. cbn [bind]. subst m. rewrite gsum_zeros by assumption. reflexivity.
Qed.
Lemma gen_opaque n f : multi_indices proper c -> opaque_fn f = true -> smooth (c_dom c) (fun x => feval f x []) -> in_shape f = c_dom c -> out_shape f = [] ->
  exists g, gen_call (5 + n) c f = Ok (FOther (c_dom c) [] g, true).
Proof.
  intros P Hf Sm Hi Ho. destruct (gen_lfo_ok c O) as (EL & _). change (5 + n)%nat with (S (S (S (S (S n))))).
  remember (S (S (S (S n)))) as m eqn:Em. cbn [gen_call].
  assert (B : forall X Y : result (fn * bool), or_else match f with
        | FSum gs => bind (mapM (gen_call m c) gs) (fun rs => bind (jax_sum_of (map fst rs)) (fun g => Ok (g, existsb snd rs)))
        | FScaled s _ => bind (gen_call m c f) (fun '(g, b) => Ok (FScaled s g, b))
        | FZero _ _ => Ok (FZero (c_dom c) [], false)
        | _ => Err NotImplementedError
        end X = X) by (intros; destruct f; easy).
  rewrite (B _ (Err RecursionError)), Ec, EL. cbn [bind]. subst m. rewrite gsum_nojax by assumption. cbn [bind or_else].
  rewrite Hi, Ho, !shape_eqb_refl. cbn [negb]. destruct (gen_jax_ok c (feval f) O Ec P Sm) as (g & -> & _). cbn [bind]. eauto.
Qed.
Lemma gen_leaf n f : multi_indices proper c -> fwf f -> fsm f -> is_sum f = false -> is_scaled f = false -> in_shape f = c_dom c -> out_shape f = [] ->
  exists g, gen_call (5 + n) c f = Ok (g, opaque_fn f) /\ in_shape g = c_dom c /\ out_shape g = [].
Proof.
  intros P Wf Sf H1 H2 Hi Ho. destruct (is_constant_fn f) eqn:C.
  - rewrite gen_const by assumption. replace (opaque_fn f) with false by (destruct f; easy). eexists. split; [reflexivity|]. now split.
  - assert (OP : opaque_fn f = true) by (destruct f; easy).
    destruct (gen_opaque n f P OP) as [g Hg]; [rewrite <- Hi; now apply feval_smooth|assumption|assumption|]. rewrite Hg, OP. eexists. split; [reflexivity|]. now split.
Qed.
Lemma gen_total n f : multi_indices proper c -> fwf f -> fsm f -> unscaled f -> in_shape f = c_dom c -> out_shape f = [] ->
  exists g, gen_call (6 + n) c f = Ok (g, existsb opaque_fn (summands f)).
Proof.
  intros P Wf Sf U Hi Ho. destruct (is_sum f) eqn:S.
  - destruct f as [| | | | |fs]; try discriminate. inversion Wf as [| | | | |f0 fs0 i o HW]; subst.
    assert (M : exists hs, mapM (gen_call (5 + n) c) (f0 :: fs0) = Ok hs /\ map snd hs = map opaque_fn (f0 :: fs0) /\
      List.Forall (fun h => in_shape h = c_dom c /\ out_shape h = []) (map fst hs)).
    { assert (G : forall l, (forall f, In f l -> In f (f0 :: fs0)) -> exists hs, mapM (gen_call (5 + n) c) l = Ok hs /\ map snd hs = map opaque_fn l /\
        List.Forall (fun h => in_shape h = c_dom c /\ out_shape h = []) (map fst hs)).
      { induction l as [|f l IH]; intros Hl; [exists []; repeat split; constructor|].
        assert (Hf : In f (f0 :: fs0)) by (apply Hl; now left). destruct (HW f Hf) as (Wf' & Hsf & Hif & Hof).
        destruct (HW f0 (or_introl eq_refl)) as (_ & _ & Hi0 & Ho0). cbn in Hi, Ho.
        destruct (gen_leaf n f P Wf' (proj1 (fsm_sum _) Sf f Hf) Hsf (U f Hf)) as (g & Hg & Ig & Og); [congruence|congruence|].
        destruct IH as (hs & Hhs & Uhs & Fhs); [intros; apply Hl; now right|]. exists ((g, opaque_fn f) :: hs). cbn [mapM]. rewrite Hg. cbn [bind]. rewrite Hhs.
        split; [reflexivity|]. cbn [map fst snd]. split; [now rewrite Uhs|]. constructor; auto. }
      apply G. auto. }
    destruct M as (hs & Hhs & Us & F2). destruct hs as [|[h0 b0] hs]; [discriminate|].
    assert (J : jax_sum_of (map fst ((h0, b0) :: hs)) = Ok (FSum (expand_summands (map fst ((h0, b0) :: hs))))).
    { unfold jax_sum_of. cbn [map fst] in *. rewrite Forall_forall in F2. destruct (F2 h0 (or_introl eq_refl)) as [I0 O0].
      assert (B1 : forallb (fun g => shape_eqb (in_shape g) (in_shape h0)) (h0 :: map fst hs) = true).
      { apply forallb_forall. intros h Hh. destruct (F2 h Hh) as [-> _]. rewrite I0. apply shape_eqb_refl. }
      assert (B2 : forallb (fun g => shape_eqb (out_shape g) (out_shape h0)) (h0 :: map fst hs) = true).
      { apply forallb_forall. intros h Hh. destruct (F2 h Hh) as [_ ->]. rewrite O0. apply shape_eqb_refl. }
      now rewrite B1, B2. }
    assert (Ex : existsb snd ((h0, b0) :: hs) = existsb opaque_fn (f0 :: fs0)).
    { assert (G : forall (l : list (fn * bool)) m, map snd l = map opaque_fn m -> existsb snd l = existsb opaque_fn m).
      { induction l as [|[h b] l IH]; intros [|f m]; try discriminate; [reflexivity|]. cbn. intros [= -> E]. now rewrite (IH m E). }
      now apply G. }
    exists (FSum (expand_summands (map fst ((h0, b0) :: hs)))). change (6 + n)%nat with (Datatypes.S (5 + n)). remember (5 + n)%nat as m eqn:Em. cbn [gen_call]. rewrite Hhs. cbn [bind]. rewrite J. cbn [bind or_else].
    now rewrite Ex.
  - destruct (is_scaled f) eqn:SC.
    + exfalso. assert (In f (summands f)) by (destruct f; try discriminate; now left). rewrite (U f H) in SC. discriminate.
    + destruct (gen_leaf (1 + n) f P Wf Sf S SC Hi Ho) as (g & Hg & _). exists g. change (6 + n)%nat with (5 + (1 + n))%nat. rewrite Hg. repeat f_equal.
      destruct f; try discriminate; cbn; now rewrite ?orb_false_r.
Qed.
(** An entry of order zero next to a derivative *)
Lemma sum_unf n L Ls f : call (S n) (OSum (L :: Ls)) f = fold_left (fun acc M => bind acc (fun a => bind (call n M f) (fun b => fn_add a b))) Ls (call n L f).
Proof. reflexivity. Qed.
Lemma nojax_order0 n a f : mi_order a = 0%nat -> opaque_fn f = true -> call (S n) (ODiff (DPartialNoJax a)) f = Ok f.
Proof.
  intros Z Hf. cbn [call]. unfold diffop_call. replace (is_constant_fn f) with false by (destruct f; easy). rewrite andb_false_r. cbn [d_order0]. now rewrite Z.
Qed.
Lemma gsum_mixed n f : opaque_fn f = true -> fwf f -> in_shape f = c_dom c -> out_shape f = [] ->
  (exists i inn a y, In (i, inn) (c_dict c) /\ In (a, y) inn /\ proper a) ->
  call (S (S (S (S n)))) (gsum DPartialNoJax c) f = Err NotImplementedError.
Proof.
  intros Hf Wf Hi Ho (i & inn & a & y & HI & Ha & Pa). set (P := fun g => fwf g /\ in_shape g = c_dom c /\ out_shape g = []).
  assert (HP : forall g h, P g -> P h -> exists r, fn_add g h = Ok r /\ P r).
  { intros g h (W1 & I1 & O1) (W2 & I2 & O2). destruct (fn_add_ok g h W1 W2) as (r & Hr & Wr & Ir & Or & _); [congruence|congruence|].
    exists r. split; [exact Hr|]. split; [exact Wr|]. split; congruence. }
  assert (T : forall b z, mi_shape b = c_dom c ->
     (mi_order b = 0%nat /\ good (fun L => call (S (S n)) L f) P (OScaled z (ODiff (DPartialNoJax b)))) \/
     (proper b /\ call (S (S n)) (OScaled z (ODiff (DPartialNoJax b))) f = Err NotImplementedError)).
  { intros b z Es. change (call (S (S n)) (OScaled z (ODiff (DPartialNoJax b))) f) with (bind (call (S n) (ODiff (DPartialNoJax b)) f) (fun g => Ok (fn_scale (SFloat z) g))).
    destruct (Nat.eq_dec (mi_order b) 0) as [Z|N].
    - left. split; [exact Z|]. exists (fn_scale (SFloat z) f).
      change (call (S (S n)) (OScaled z (ODiff (DPartialNoJax b))) f) with (bind (call (S n) (ODiff (DPartialNoJax b)) f) (fun g => Ok (fn_scale (SFloat z) g))).
      rewrite nojax_order0 by assumption. split; [reflexivity|].
      destruct (fn_scale_ok (SFloat z) f Wf) as (H1 & H2 & H3 & _). split; [exact H1|]. split; congruence.
    - right. split; [exact N|]. rewrite nojax_opaque; auto. congruence. }
  assert (I : forall j jnn, In (j, jnn) (c_dict c) -> 
     (good (fun L => call (S (S (S n))) L f) P (OSum (map (fun '(a, x) => OScaled x (ODiff (DPartialNoJax a))) jnn))) \/
     call (S (S (S n))) (OSum (map (fun '(a, x) => OScaled x (ODiff (DPartialNoJax a))) jnn)) f = Err NotImplementedError).
  { intros j jnn HJ. destruct (proj2 O j jnn HJ) as (N & _ & A).
    assert (D : (exists b z, In (b, z) jnn /\ proper b) \/ forall b z, In (b, z) jnn -> mi_order b = 0%nat).
    { clear. induction jnn as [|[b z] jnn IH]; [right; intros ? ? []|]. destruct (Nat.eq_dec (mi_order b) 0) as [Z|Z].
      - destruct IH as [(b' & z' & H & Pb)|H]; [left; exists b', z'; split; [now right|exact Pb]|right]. intros b' z' [[= <- <-]|Hb]; eauto.
      - left. exists b, z. split; [now left|exact Z]. }
    destruct jnn as [|[b0 z0] jnn]; [congruence|]. destruct D as [(b & z & Hb & Pb)|D].
    - right. cbn [map]. rewrite sum_unf. apply (reduce_bad (fun L => call (S (S n)) L f) fn_add P _ HP).
      + intros L HL. change (In L (map (fun '(a, x) => OScaled x (ODiff (DPartialNoJax a))) ((b0, z0) :: jnn))) in HL.
        apply in_map_iff in HL as ([b' z'] & <- & Hb'). destruct (T b' z' (proj2 (A b' z' Hb'))) as [[_ G]|[_ G]]; [now left|now right].
      + exists (OScaled z (ODiff (DPartialNoJax b))). split.
        * change (In (OScaled z (ODiff (DPartialNoJax b))) (map (fun '(a, x) => OScaled x (ODiff (DPartialNoJax a))) ((b0, z0) :: jnn))). 
          apply in_map_iff. exists (b, z). now split.
        * destruct (T b z (proj2 (A b z Hb))) as [[Z _]|[_ G]]; [contradiction|exact G].
    - left. unfold good. cbn [map]. rewrite sum_unf. apply (reduce_good (fun L => call (S (S n)) L f) fn_add P HP).
      intros L HL. change (In L (map (fun '(a, x) => OScaled x (ODiff (DPartialNoJax a))) ((b0, z0) :: jnn))) in HL.
      apply in_map_iff in HL as ([b' z'] & <- & Hb'). destruct (T b' z' (proj2 (A b' z' Hb'))) as [[_ G]|[Pb _]]; [exact G|].
      exfalso. apply Pb. exact (D b' z' Hb'). }
  assert (Bad : call (S (S (S n))) (OSum (map (fun '(a, x) => OScaled x (ODiff (DPartialNoJax a))) inn)) f = Err NotImplementedError).
  { destruct (proj2 O i inn HI) as (_ & _ & A). destruct inn as [|[b0 z0] inn]; [destruct Ha|].
    cbn [map]. rewrite sum_unf. apply (reduce_bad (fun L => call (S (S n)) L f) fn_add P _ HP).
    + intros L HL. change (In L (map (fun '(a, x) => OScaled x (ODiff (DPartialNoJax a))) ((b0, z0) :: inn))) in HL.
      apply in_map_iff in HL as ([b' z'] & <- & Hb'). destruct (T b' z' (proj2 (A b' z' Hb'))) as [[_ G]|[_ G]]; [now left|now right].
    + exists (OScaled y (ODiff (DPartialNoJax a))). split.
      * change (In (OScaled y (ODiff (DPartialNoJax a))) (map (fun '(a, x) => OScaled x (ODiff (DPartialNoJax a))) ((b0, z0) :: inn))). 
        apply in_map_iff. exists (a, y). now split.
      * destruct (T a y (proj2 (A a y Ha))) as [[Z _]|[_ G]]; [contradiction|exact G]. }
  unfold gsum. assert (HM : In (OSum (map (fun '(a, x) => OScaled x (ODiff (DPartialNoJax a))) inn)) (map (fun '(_, inn) => OSum (map (fun '(a, x) => OScaled x (ODiff (DPartialNoJax a))) inn)) (c_dict c))).
  { apply in_map_iff. exists (i, inn). now split. }
  assert (HA : forall L, In L (map (fun '(_, inn) => OSum (map (fun '(a, x) => OScaled x (ODiff (DPartialNoJax a))) inn)) (c_dict c)) -> good (fun L => call (S (S (S n))) L f) P L \/ call (S (S (S n))) L f = Err NotImplementedError).
  { intros L HL. apply in_map_iff in HL as ([j jnn] & <- & HJ). now apply (I j). }
  revert HM HA. generalize (map (fun '(_, inn) => OSum (map (fun '(a, x) => OScaled x (ODiff (DPartialNoJax a))) inn)) (c_dict c)). intros [|L Ls] HM HA; [destruct HM|].
  rewrite sum_unf. apply (reduce_bad (fun L => call (S (S (S n))) L f) fn_add P _ HP); [exact HA|eauto].
Qed.
Lemma jax_mixed f : (exists i inn a y, In (i, inn) (c_dict c) /\ In (a, y) inn /\ mi_order a = 0%nat) -> gen_jax c f = Err TypeError.
Proof.
  intros (i & inn & a & y & HI & Ha & Z). unfold gen_jax. rewrite (gen_terms_ok c O). cbn [bind].
  match goal with |- context [mapM (mapM ?t)] => set (tm := t) end.
  assert (T : forall b z, mi_wf b -> (mi_order b <> 0%nat /\ exists g, tm (Term z b []) = Ok g) \/ (mi_order b = 0%nat /\ tm (Term z b []) = Err TypeError)).
  { intros b z W. unfold tm. cbn [t_idx t_mi t_scalar]. destruct (Nat.eqb_spec (mi_order b) 0) as [E|E]; [now right|left]. split; [exact E|].
    destruct (jax_total (DPartial b) (fun x => f x []) (conj W E)) as [g ->]. cbn. eauto. }
  assert (MM : forall {A B} (h : A -> result B) l, (forall x, In x l -> (exists r, h x = Ok r) \/ h x = Err TypeError) ->
     (exists rs, mapM h l = Ok rs) \/ mapM h l = Err TypeError).
  { clear. intros A B h l. induction l as [|x l IH]; intros H; [left; now exists []|]. cbn. destruct (H x (or_introl eq_refl)) as [[r ->]| ->]; [|now right]. cbn.
    destruct IH as [[rs ->]| ->]; [intros; apply H; now right|left|now right]. cbn. eauto. }
  assert (ME : forall {A B} (h : A -> result B) l x, (forall x, In x l -> (exists r, h x = Ok r) \/ h x = Err TypeError) -> In x l -> h x = Err TypeError -> mapM h l = Err TypeError).
  { clear. intros A B h l x. induction l as [|y l IH]; intros H I E; [destruct I|]. destruct I as [->|I]; cbn.
    - now rewrite E.
    - destruct (H y (or_introl eq_refl)) as [[r ->]| ->]; [|reflexivity]. cbn. rewrite IH; [reflexivity|intros; apply H; now right|exact I|exact E]. }
  assert (IN : forall j jnn, In (j, jnn) (c_dict c) -> forall t, In t (map (fun '(a, y) => Term y a j) jnn) -> (exists r, tm t = Ok r) \/ tm t = Err TypeError).
  { intros j jnn HJ t Ht. apply in_map_iff in Ht as ([b z] & <- & Hb). destruct (proj2 O j jnn HJ) as (_ & R & A). rewrite Ec in R. inversion R; subst j.
    destruct (T b z (proj1 (A b z Hb))) as [[_ G]|[_ G]]; auto. }
  assert (E : mapM (mapM tm) (map (fun '(i, inn) => map (fun '(a, y) => Term y a i) inn) (c_dict c)) = Err TypeError).
  { apply (ME _ _ (mapM tm) _ (map (fun '(a, y) => Term y a i) inn)).
    - intros l Hl. apply in_map_iff in Hl as ([j jnn] & <- & HJ). apply MM. now apply IN.
    - apply in_map_iff. exists (i, inn). now split.
    - apply (ME _ _ tm _ (Term y a i)); [now apply IN| |].
      + apply in_map_iff. exists (a, y). now split.
      + destruct (proj2 O i inn HI) as (_ & R & A). rewrite Ec in R. inversion R; subst i. destruct (T a y (proj1 (A a y Ha))) as [[N _]|[_ G]]; [contradiction|exact G]. }
  now rewrite E.
Qed.
Lemma gen_mixed n f : opaque_fn f = true -> fwf f -> in_shape f = c_dom c -> out_shape f = [] ->
  (exists i inn a y, In (i, inn) (c_dict c) /\ In (a, y) inn /\ proper a) ->
  (exists i inn a y, In (i, inn) (c_dict c) /\ In (a, y) inn /\ mi_order a = 0%nat) ->
  gen_call (5 + n) c f = Err TypeError.
Proof.
  intros Hf Wf Hi Ho HP HZ. destruct (gen_lfo_ok c O) as (EL & _). change (5 + n)%nat with (S (S (S (S (S n))))).
  remember (S (S (S (S n)))) as m eqn:Em. cbn [gen_call].
  assert (B : forall X Y : result (fn * bool), or_else match f with
        | FSum gs => bind (mapM (gen_call m c) gs) (fun rs => bind (jax_sum_of (map fst rs)) (fun g => Ok (g, existsb snd rs)))
        | FScaled s _ => bind (gen_call m c f) (fun '(g, b) => Ok (FScaled s g, b))
        | FZero _ _ => Ok (FZero (c_dom c) [], false)
        | _ => Err NotImplementedError
        end X = X) by (intros; destruct f; easy).
  rewrite (B _ (Err RecursionError)), Ec, EL. cbn [bind]. subst m. rewrite gsum_mixed by assumption. cbn [bind or_else].
  rewrite Hi, Ho, !shape_eqb_refl. cbn [negb]. now rewrite jax_mixed.
Qed.
End Functions.
