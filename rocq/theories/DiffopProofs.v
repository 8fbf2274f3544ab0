From Coq Require Import List Arith ZArith Bool Lia Field_theory Ring_theory.
From Verif Require Import Base NdArray DiffopModel DiffopSpec.
Import ListNotations.

Lemma mi_eqb_spec a b : reflect (a = b) (mi_eqb a b).
Proof.
  unfold mi_eqb. destruct a as [s x], b as [t y]. cbn.
  destruct (shape_eqb_spec s t); [|constructor; congruence].
  destruct (shape_eqb_spec x y); constructor; congruence.
Qed.
Lemma ci_eqb_spec a b : reflect (a = b) (ci_eqb a b).
Proof. unfold ci_eqb. destruct (list_eq_dec Z.eq_dec a b); constructor; assumption. Qed.

Section Dict.
Variables (K V : Type) (eqb : K -> K -> bool).
Hypothesis eqbP : forall a b, reflect (a = b) (eqb a b).
Lemma dget_in (d : list (K * V)) k v : dget eqb d k = Some v -> In (k, v) d.
Proof.
  induction d as [|[k' v'] d IH]; cbn; [discriminate|]. destruct (eqbP k' k); [|auto].
  intros [= <-]. left. now subst.
Qed.
Lemma dget_none (d : list (K * V)) k : dget eqb d k = None -> ~ In k (map fst d).
Proof.
  induction d as [|[k' v'] d IH]; cbn; [tauto|]. destruct (eqbP k' k); [discriminate|].
  intros H [E|H']; [congruence|]. now apply IH.
Qed.
Lemma in_dget (d : list (K * V)) k v : NoDup (map fst d) -> In (k, v) d -> dget eqb d k = Some v.
Proof.
  induction d as [|[k' v'] d IH]; cbn; [tauto|]. intros N [E|H]; inversion N; subst.
  - injection E as -> ->. destruct (eqbP k k); congruence.
  - destruct (eqbP k' k) as [->|]; [|auto]. exfalso. apply H2. now apply (in_map fst) in H.
Qed.
Lemma dset_keys (d : list (K * V)) k v :
  map fst (dset eqb d k v) = if existsb (fun k' => eqb k' k) (map fst d) then map fst d else map fst d ++ [k].
Proof.
  induction d as [|[k' v'] d IH]; cbn; [reflexivity|]. destruct (eqbP k' k); [reflexivity|]. cbn [map fst]. rewrite IH.
  cbn. destruct (existsb _ (map fst d)); reflexivity.
Qed.
Lemma dset_nodup (d : list (K * V)) k v : NoDup (map fst d) -> NoDup (map fst (dset eqb d k v)).
Proof.
  intros N. rewrite dset_keys. destruct (existsb _ _) eqn:E; [exact N|].
  rewrite <- (rev_involutive (map fst d ++ [k])). apply NoDup_rev. rewrite rev_app_distr. cbn. constructor.
  - rewrite <- in_rev. intros H. assert (existsb (fun k' => eqb k' k) (map fst d) = true); [|congruence].
    apply existsb_exists. exists k. split; [exact H|]. destruct (eqbP k k); congruence.
  - now apply NoDup_rev.
Qed.
Lemma dset_in (d : list (K * V)) k v k' v' : In (k', v') (dset eqb d k v) -> (k' = k /\ v' = v) \/ In (k', v') d.
Proof.
  induction d as [|[k2 v2] d IH]; cbn.
  - intros [[= -> ->]|[]]. now left.
  - destruct (eqbP k2 k) as [->|]; cbn; intros [[= -> ->]|H]; auto. destruct (IH H); auto.
Qed.
End Dict.

(** Sums over entries. *)
Section Sums.
Variable F : fops.
Hypothesis L : flaws F.
Add Field Ffield : (fl_field F L).
Definition esum {K V} (g : K -> V -> F) (d : list (K * V)) : F := fold_right (fun '(k, v) acc => fadd (g k v) acc) f0 d.
Lemma esum_nil {K V} (g : K -> V -> F) : esum g [] = f0. Proof. reflexivity. Qed.
Lemma esum_cons {K V} (g : K -> V -> F) k v d : esum g ((k, v) :: d) = fadd (g k v) (esum g d). Proof. reflexivity. Qed.
Local Opaque esum.
Lemma esum_ext {K V} (g h : K -> V -> F) d : (forall k v, In (k, v) d -> g k v = h k v) -> esum g d = esum h d.
Proof.
  induction d as [|[k v] d IH]; [reflexivity|]. intros H. rewrite !esum_cons. rewrite IH by (intros; apply H; now right).
  rewrite (H k v) by now left. reflexivity.
Qed.
Lemma esum_add {K V} (g h : K -> V -> F) d : esum (fun k v => fadd (g k v) (h k v)) d = fadd (esum g d) (esum h d).
Proof. induction d as [|[k v] d IH]; rewrite ?esum_nil, ?esum_cons; [ring|]. rewrite IH. ring. Qed.
Lemma esum_mulr {K V} (g : K -> V -> F) d s : esum (fun k v => fmul (g k v) s) d = fmul (esum g d) s.
Proof. induction d as [|[k v] d IH]; rewrite ?esum_nil, ?esum_cons; [ring|]. rewrite IH. ring. Qed.
Lemma esum_zero {K V} (g : K -> V -> F) d : (forall k v, In (k, v) d -> g k v = f0) -> esum g d = f0.
Proof.
  induction d as [|[k v] d IH]; [reflexivity|]. intros H. rewrite !esum_cons. rewrite (H k v) by now left.
  rewrite IH by (intros; apply H; now right). ring.
Qed.
Lemma esum_dset {K V} (eqb : K -> K -> bool) (eqbP : forall a b, reflect (a = b) (eqb a b)) (g : K -> V -> F) d k v :
  esum g (dset eqb d k v) = fsub (fadd (esum g d) (g k v)) (match dget eqb d k with Some o => g k o | None => f0 end).
Proof.
  induction d as [|[k' v'] d IH]; cbn [dset dget]; [rewrite esum_cons, esum_nil; ring|].
  destruct (eqbP k' k) as [->|]; rewrite !esum_cons; [ring|]. rewrite IH. destruct (dget eqb d k); ring.
Qed.

Definition inner_at (inn : inner F) (a : mi) : F := esum (fun a' x => if mi_dec a' a then x else f0) inn.
Lemma coeff_atE (c : coeffs F) i a :
  coeff_at c i a = esum (fun i' inn => if list_eq_dec Z.eq_dec i' i then inner_at inn a else f0) (c_dict c).
Proof.
  unfold coeff_at. induction (c_dict c) as [|[i' inn] d IH]; [reflexivity|]. cbn [fold_right]. rewrite esum_cons.
  assert (E : fold_right (fun '(a', x) (acc' : F) => if mi_dec a' a then fadd x acc' else acc') f0 inn = inner_at inn a).
  { clear - L. unfold inner_at. induction inn as [|[a' x] inn IH]; [reflexivity|]. rewrite esum_cons. cbn. rewrite IH. destruct (mi_dec a' a); ring. }
  rewrite E. destruct (list_eq_dec Z.eq_dec i' i); rewrite IH; ring.
Qed.

Lemma merge_at (other : inner F) inn a : inner_at (merge inn other) a = fadd (inner_at inn a) (inner_at other a).
Proof.
  unfold merge. revert inn. induction other as [|[a' x] other IH]; intros inn; [unfold inner_at; cbn; rewrite esum_nil; ring|].
  cbn [fold_left]. rewrite IH. unfold inner_at at 4. rewrite esum_cons. fold (inner_at other a).
  destruct (dget mi_eqb inn a') as [y|] eqn:E; unfold inner_at; rewrite (esum_dset mi_eqb mi_eqb_spec), E;
    fold (inner_at inn a); destruct (mi_dec a' a); ring.
Qed.
Lemma merge_keys (other : inner F) inn (P : mi -> Prop) :
  (forall a x, In (a, x) inn -> P a) -> (forall a x, In (a, x) other -> P a) ->
  NoDup (map fst inn) -> NoDup (map fst (merge inn other)) /\ forall a x, In (a, x) (merge inn other) -> P a.
Proof.
  unfold merge. revert inn. induction other as [|[a' x'] other IH]; intros inn H1 H2 N; [split; auto|].
  cbn [fold_left]. apply IH.
  - intros a x. destruct (dget mi_eqb inn a'); intros H; apply (dset_in _ _ mi_eqb mi_eqb_spec) in H as [[-> _]|H].
    all: eauto with datatypes.
  - intros a x H. eapply H2. right. exact H.
  - destruct (dget mi_eqb inn a'); now apply (dset_nodup _ _ mi_eqb mi_eqb_spec).
Qed.

Definition wf_outer (d : outer F) (dom cod : shape) : Prop :=
  forall i inn, In (i, inn) d ->
    length i = length cod /\ Forall2 (fun x y => (x < Z.of_nat y)%Z) i cod /\
    forall a x, In (a, x) inn -> mi_shape a = dom.
Lemma all_lt_spec i s : length i = length s -> (all_lt i s = true <-> Forall2 (fun x y => (x < Z.of_nat y)%Z) i s).
Proof.
  unfold all_lt. revert s. induction i as [|x i IH]; intros [|y s]; cbn; try discriminate.
  - split; [constructor|reflexivity].
  - intros [= E]. rewrite andb_true_iff, (IH s E), Z.ltb_lt. split; [intros [? ?]; now constructor|intros H; inversion H; auto].
Qed.
Lemma mk_coeffs_ok (d : outer F) dom cod : wf_outer d dom cod <-> mk_coeffs d dom cod = Ok (Coeffs d dom cod).
Proof.
  unfold mk_coeffs. match goal with |- context [if ?b then _ else _] => destruct b eqn:E end; split; try discriminate; try reflexivity.
  - intros _ i inn H. rewrite forallb_forall in E. specialize (E _ H). cbn in E.
    apply andb_true_iff in E as [E E3]. apply andb_true_iff in E as [E1 E2]. apply Nat.eqb_eq in E1.
    split; [exact E1|]. split; [now apply all_lt_spec|].
    intros a x Ha. rewrite forallb_forall in E3. specialize (E3 _ Ha). cbn in E3. now destruct (shape_eqb_spec (mi_shape a) dom).
  - intros W. exfalso. assert (E' : forallb (fun '(i, inn) => (length i =? length cod) && all_lt i cod &&
                forallb (fun '(a, _) => shape_eqb (mi_shape a) dom) inn) d = true); [|congruence].
    apply forallb_forall. intros [i inn] H. destruct (W _ _ H) as (E1 & E2 & E3).
    rewrite E1, Nat.eqb_refl. cbn. rewrite (proj2 (all_lt_spec i cod E1) E2). cbn.
    apply forallb_forall. intros [a x] Ha. rewrite (E3 _ _ Ha). apply shape_eqb_refl.
Qed.
Lemma mk_coeffs_err (d : outer F) dom cod : ~ wf_outer d dom cod <-> mk_coeffs d dom cod = Err ValueError.
Proof.
  split; intros H.
  - destruct (mk_coeffs d dom cod) as [c|e] eqn:E.
    + exfalso. apply H, mk_coeffs_ok. unfold mk_coeffs in *. match goal with |- context [if ?b then _ else _] => destruct b end; [reflexivity|discriminate].
    + unfold mk_coeffs in E. match type of E with context [if ?b then _ else _] => destruct b end; congruence.
  - intros W. apply mk_coeffs_ok in W. congruence.
Qed.

Definition add_loop (d2 d1 : outer F) : outer F :=
  fold_left (fun acc '(i, inn) =>
      match dget ci_eqb acc i with
      | Some old => dset ci_eqb acc i (merge old inn)
      | None => dset ci_eqb acc i inn
      end) d2 d1.
Definition oat (d : outer F) i a : F := esum (fun i' inn => if list_eq_dec Z.eq_dec i' i then inner_at inn a else f0) d.
Lemma add_loop_at d2 d1 i a : oat (add_loop d2 d1) i a = fadd (oat d1 i a) (oat d2 i a).
Proof.
  revert d1. induction d2 as [|[i' inn] d2 IH]; intros d1; [unfold oat; cbn; rewrite esum_nil; ring|].
  cbn [add_loop fold_left]. unfold add_loop in IH. rewrite IH.
  unfold oat at 4. rewrite esum_cons. fold (oat d2 i a).
  destruct (dget ci_eqb d1 i') as [old|] eqn:E; unfold oat at 1; rewrite (esum_dset ci_eqb ci_eqb_spec), E; fold (oat d1 i a);
    destruct (list_eq_dec Z.eq_dec i' i); try rewrite merge_at; ring.
Qed.
Lemma add_loop_wf d2 d1 dom cod :
  NoDup (map fst d1) -> wf_outer d1 dom cod -> (forall i inn, In (i, inn) d1 -> NoDup (map fst inn)) ->
  wf_outer d2 dom cod -> (forall i inn, In (i, inn) d2 -> NoDup (map fst inn)) ->
  NoDup (map fst (add_loop d2 d1)) /\ wf_outer (add_loop d2 d1) dom cod /\ forall i inn, In (i, inn) (add_loop d2 d1) -> NoDup (map fst inn).
Proof.
  revert d1. induction d2 as [|[i' inn'] d2 IH]; intros d1 N1 W1 I1 W2 I2; [cbn; auto|].
  cbn [add_loop fold_left].
  assert (W2' : wf_outer d2 dom cod) by (intros i inn H; apply (W2 i inn); now right).
  assert (I2' : forall i inn, In (i, inn) d2 -> NoDup (map fst inn)) by (intros i inn H; apply (I2 i inn); now right).
  destruct (W2 i' inn' (or_introl eq_refl)) as (A1 & A2 & A3). specialize (I2 i' inn' (or_introl eq_refl)).
  destruct (dget ci_eqb d1 i') as [old|] eqn:E.
  - apply (dget_in _ _ ci_eqb ci_eqb_spec) in E. destruct (W1 _ _ E) as (B1 & B2 & B3).
    destruct (merge_keys inn' old (fun a => mi_shape a = dom) B3 A3 (I1 _ _ E)) as [N' K'].
    apply IH; auto.
    + now apply (dset_nodup _ _ ci_eqb ci_eqb_spec).
    + intros i inn H. apply (dset_in _ _ ci_eqb ci_eqb_spec) in H as [[-> ->]|H]; [auto|now apply W1].
    + intros i inn H. apply (dset_in _ _ ci_eqb ci_eqb_spec) in H as [[-> ->]|H]; [auto|eauto].
  - apply IH; auto.
    + now apply (dset_nodup _ _ ci_eqb ci_eqb_spec).
    + intros i inn H. apply (dset_in _ _ ci_eqb ci_eqb_spec) in H as [[-> ->]|H]; [auto|now apply W1].
    + intros i inn H. apply (dset_in _ _ ci_eqb ci_eqb_spec) in H as [[-> ->]|H]; [auto|eauto].
Qed.

Lemma wf_split (c : coeffs F) : wf_coeffs c ->
  NoDup (map fst (c_dict c)) /\ wf_outer (c_dict c) (c_dom c) (c_cod c) /\ forall i inn, In (i, inn) (c_dict c) -> NoDup (map fst inn).
Proof. intros [N H]. split; [exact N|]. split; intros i inn Hi; destruct (H _ _ Hi) as (? & ? & ? & ?); auto. Qed.
Lemma wf_join (d : outer F) dom cod : NoDup (map fst d) -> wf_outer d dom cod -> (forall i inn, In (i, inn) d -> NoDup (map fst inn)) ->
  wf_coeffs (Coeffs d dom cod).
Proof. intros N W I. split; [exact N|]. intros i inn H. destruct (W _ _ H) as (? & ? & ?). cbn. repeat split; eauto. Qed.

Lemma c_add_ok (c1 c2 : coeffs F) : wf_coeffs c1 -> wf_coeffs c2 -> c_dom c1 = c_dom c2 -> c_cod c1 = c_cod c2 ->
  exists c, c_add c1 c2 = Ok c /\ wf_coeffs c /\ c_dom c = c_dom c1 /\ c_cod c = c_cod c1 /\
    forall i a, coeff_at c i a = fadd (coeff_at c1 i a) (coeff_at c2 i a).
Proof.
  intros H1 H2 E1 E2. apply wf_split in H1 as (N1 & W1 & I1). apply wf_split in H2 as (N2 & W2 & I2).
  rewrite <- E1, <- E2 in W2.
  destruct (add_loop_wf _ _ _ _ N1 W1 I1 W2 I2) as (N & W & I).
  exists (Coeffs (add_loop (c_dict c2) (c_dict c1)) (c_dom c1) (c_cod c1)). split; [|split; [|split; [|split]]]; try reflexivity.
  - unfold c_add. rewrite E1, E2, !shape_eqb_refl. cbn [negb]. rewrite <- E1, <- E2. now apply mk_coeffs_ok.
  - now apply wf_join.
  - intros i a. rewrite !coeff_atE. apply add_loop_at.
Qed.
Lemma c_add_err (c1 c2 : coeffs F) : c_dom c1 <> c_dom c2 \/ c_cod c1 <> c_cod c2 -> c_add c1 c2 = Err ValueError.
Proof.
  unfold c_add. destruct (shape_eqb_spec (c_dom c1) (c_dom c2)); [|reflexivity].
  destruct (shape_eqb_spec (c_cod c1) (c_cod c2)); [|reflexivity]. tauto.
Qed.
Lemma c_scale_ok s (c : coeffs F) : wf_coeffs c ->
  exists c', c_scale s c = Ok c' /\ wf_coeffs c' /\ c_dom c' = c_dom c /\ c_cod c' = c_cod c /\
    forall i a, coeff_at c' i a = fmul (coeff_at c i a) s.
Proof.
  intros H. apply wf_split in H as (N & W & I). eexists. split; [|split; [|split; [|split]]].
  - unfold c_scale. apply mk_coeffs_ok. intros i inn H. apply in_map_iff in H as [[i' inn'] [[= <- <-] H]].
    destruct (W _ _ H) as (A & B & C). split; [exact A|]. split; [exact B|]. intros a x Ha.
    apply in_map_iff in Ha as [[a' x'] [[= <- <-] Ha]]. eauto.
  - apply wf_join.
    + rewrite map_map. erewrite map_ext; [exact N|]. now intros [i inn].
    + intros i inn H. apply in_map_iff in H as [[i' inn'] [[= <- <-] H]].
      destruct (W _ _ H) as (A & B & C). split; [exact A|]. split; [exact B|]. intros a x Ha.
      apply in_map_iff in Ha as [[a' x'] [[= <- <-] Ha]]. eauto.
    + intros i inn H. apply in_map_iff in H as [[i' inn'] [[= <- <-] H]]. rewrite map_map.
      erewrite map_ext; [exact (I _ _ H)|]. now intros [a x].
  - reflexivity.
  - reflexivity.
  - intros i a. rewrite !coeff_atE. cbn [c_dict]. rewrite <- esum_mulr.
    clear - L. induction (c_dict c) as [|[i' inn] d IH]; [reflexivity|]. cbn [map]. rewrite !esum_cons.
    change (fadd (if list_eq_dec Z.eq_dec i' i then inner_at (map (fun '(a, x) => (a, fmul x s)) inn) a else f0)
      (esum (fun i'0 inn0 => if list_eq_dec Z.eq_dec i'0 i then inner_at inn0 a else f0)
        (map (fun '(i, inn) => (i, map (fun '(a, x) => (a, fmul x s)) inn)) d)) =
      fadd (fmul (if list_eq_dec Z.eq_dec i' i then inner_at inn a else f0) s)
        (esum (fun k v => fmul (if list_eq_dec Z.eq_dec k i then inner_at v a else f0) s) d)).
    rewrite IH. f_equal. destruct (list_eq_dec Z.eq_dec i' i); [|ring].
    unfold inner_at. rewrite <- esum_mulr. clear - L. induction inn as [|[a' x] inn IH]; [reflexivity|]. cbn [map]. rewrite !esum_cons. rewrite IH. destruct (mi_dec a' a); ring.
Qed.
Lemma c_neg_ok (c : coeffs F) : wf_coeffs c ->
  exists c', c_neg c = Ok c' /\ wf_coeffs c' /\ c_dom c' = c_dom c /\ c_cod c' = c_cod c /\
    forall i a, coeff_at c' i a = fopp (coeff_at c i a).
Proof.
  intros H. destruct (c_scale_ok (fopp f1) c H) as (c' & E & W & A & B & C). exists c'. do 4 (split; [assumption|]).
  intros i a. rewrite C. ring.
Qed.
Lemma c_sub_ok (c1 c2 : coeffs F) : wf_coeffs c1 -> wf_coeffs c2 -> c_dom c1 = c_dom c2 -> c_cod c1 = c_cod c2 ->
  exists c, c_sub c1 c2 = Ok c /\ wf_coeffs c /\ c_dom c = c_dom c1 /\ c_cod c = c_cod c1 /\
    forall i a, coeff_at c i a = fsub (coeff_at c1 i a) (coeff_at c2 i a).
Proof.
  intros H1 H2 E1 E2. destruct (c_neg_ok c2 H2) as (n & En & Wn & An & Bn & Cn).
  destruct (c_add_ok c1 n H1 Wn) as (c & E & W & A & B & C); [congruence|congruence|].
  exists c. split; [unfold c_sub; now rewrite En|]. do 3 (split; [assumption|]).
  intros i a. rewrite C, Cn. ring.
Qed.

(** Axis dictionaries *)
Lemma index_in_spec sh i : reflect (valid_index sh i) (index_in sh i).
Proof.
  apply iff_reflect. rewrite <- all_indices_spec. unfold index_in. rewrite existsb_exists. split.
  - intros H. exists i. split; [exact H|]. apply shape_eqb_refl.
  - intros (j & H & E). destruct (shape_eqb_spec j i); [now subst|discriminate].
Qed.
End Sums.

Lemma length_all sh : length (all_indices sh) = size sh.
Proof. rewrite <- (map_length (ravel sh)), ravel_all. apply seq_length. Qed.
Lemma nth_all sh i : valid_index sh i -> nth_error (all_indices sh) (ravel sh i) = Some i.
Proof.
  intros H. destruct (nth_error (all_indices sh) (ravel sh i)) as [j|] eqn:E.
  - f_equal. pose proof (nth_error_In _ _ E) as Hj. apply all_indices_spec in Hj.
    apply (ravel_inj sh); auto. apply (map_nth_error (ravel sh)) in E. rewrite ravel_all in E.
    pose proof (ravel_lt _ _ H) as Hl. rewrite (nth_error_nth' _ 0) in E by (rewrite seq_length; lia).
    rewrite seq_nth in E by lia. injection E as E. lia.
  - apply nth_error_None in E. rewrite length_all in E. pose proof (ravel_lt _ _ H). lia.
Qed.
Lemma all_nodup sh : NoDup (all_indices sh).
Proof. apply (NoDup_map_inv (ravel sh)). rewrite ravel_all. apply seq_NoDup. Qed.
Lemma mi_of_is sh f : mi_is (mi_of sh f) sh f.
Proof.
  split; [reflexivity|]. split; [cbn; rewrite map_length; apply length_all|].
  intros i H. cbn. rewrite nth_error_map, nth_all by exact H. reflexivity.
Qed.
Lemma nth_error_ext {A} (l l' : list A) : (forall n, nth_error l n = nth_error l' n) -> l = l'.
Proof.
  revert l'. induction l as [|x l IH]; intros [|y l'] H; [reflexivity| | |]; try (specialize (H 0); cbn in H; congruence).
  f_equal; [specialize (H 0); cbn in H; congruence|]. apply IH. intros n. exact (H (S n)).
Qed.
Lemma mi_is_unique a b sh g : mi_is a sh g -> mi_is b sh g -> a = b.
Proof.
  intros (A1 & A2 & A3) (B1 & B2 & B3). destruct a as [s x], b as [t y]. cbn in *. subst s t. f_equal.
  apply nth_error_ext. intros n. destruct (Nat.lt_ge_cases n (size sh)) as [H|H].
  - destruct (ravel_surj sh n H) as (i & Hi & <-). now rewrite A3, B3.
  - rewrite !(proj2 (nth_error_None _ _)); [reflexivity|lia|lia].
Qed.
Lemma mi_is_ext a sh g h : (forall i, valid_index sh i -> g i = h i) -> mi_is a sh g -> mi_is a sh h.
Proof. intros E (A & B & C). split; [exact A|]. split; [exact B|]. intros i H. rewrite C by exact H. now rewrite E. Qed.
Lemma unit_is sh i n : mi_is (unit_mi sh i n) sh (axis i n).
Proof.
  apply (mi_is_ext _ _ (fun j => if shape_eqb j i then n else 0)); [|apply mi_of_is].
  intros j _. unfold axis. destruct (shape_eqb_spec j i), (list_eq_dec Nat.eq_dec j i); congruence.
Qed.
Lemma unit_inj sh i j n : n <> 0 -> valid_index sh i -> valid_index sh j -> unit_mi sh i n = unit_mi sh j n -> i = j.
Proof.
  intros Hn Hi Hj E. destruct (unit_is sh i n) as (_ & _ & A). destruct (unit_is sh j n) as (_ & _ & B).
  rewrite E in A. specialize (A i Hi). rewrite B in A by exact Hi. injection A as A. unfold axis in A.
  destruct (list_eq_dec Nat.eq_dec i j); [assumption|]. destruct (list_eq_dec Nat.eq_dec i i); congruence.
Qed.

Lemma esum_cons' (F : fops) {K V} (g : K -> V -> F) k v d : esum F g ((k, v) :: d) = fadd (g k v) (esum F g d). Proof. reflexivity. Qed.
Section Axis.
Variable F : fops.
Hypothesis L : flaws F.
Add Field Ffield2 : (fl_field F L).
Variables (sh : shape) (w : index -> F) (n : nat).
Hypothesis Hn : n <> 0.
Definition axis_loop (is : list index) (acc : inner F) : inner F :=
  fold_left (fun acc i => if feqb (w i) f0 then acc else dset mi_eqb acc (unit_mi sh i n) (w i)) is acc.
Lemma axis_loop_nodup is acc : NoDup (map fst acc) -> (forall a x, In (a, x) acc -> mi_shape a = sh) ->
  NoDup (map fst (axis_loop is acc)) /\ forall a x, In (a, x) (axis_loop is acc) -> mi_shape a = sh.
Proof.
  revert acc. induction is as [|i is IH]; intros acc N S; [auto|]. cbn [axis_loop fold_left].
  destruct (feqb (w i) f0); apply IH; auto.
  - now apply (dset_nodup _ _ mi_eqb mi_eqb_spec).
  - intros a x H. apply (dset_in _ _ mi_eqb mi_eqb_spec) in H as [[-> _]|H]; [reflexivity|eauto].
Qed.
Lemma axis_loop_at is acc a : NoDup is -> (forall i, In i is -> valid_index sh i) ->
  (forall i, In i is -> ~ In (unit_mi sh i n) (map fst acc)) ->
  inner_at F (axis_loop is acc) a = fadd (inner_at F acc a) (fold_right (fun i s => fadd (if mi_dec (unit_mi sh i n) a then w i else f0) s) f0 is).
Proof.
  revert acc. induction is as [|i is IH]; intros acc N V Hk; [cbn [axis_loop fold_left fold_right]; ring|]. cbn [axis_loop fold_left fold_right].
  inversion N as [|? ? N1 N2]; subst.
  destruct (feqb (w i) f0) eqn:E.
  - apply (fl_eqb F L) in E. fold (axis_loop is acc). rewrite IH; auto with datatypes. rewrite E.
    destruct (mi_dec (unit_mi sh i n) a); ring.
  - fold (axis_loop is (dset mi_eqb acc (unit_mi sh i n) (w i))). rewrite IH; auto with datatypes.
    + unfold inner_at at 1. rewrite (esum_dset F L mi_eqb mi_eqb_spec).
      destruct (dget mi_eqb acc (unit_mi sh i n)) eqn:G.
      * exfalso. apply (dget_in _ _ mi_eqb mi_eqb_spec) in G. apply (in_map fst) in G. apply (Hk i); auto with datatypes.
      * fold (inner_at F acc a). destruct (mi_dec (unit_mi sh i n) a); ring.
    + intros j Hj. rewrite (dset_keys _ _ mi_eqb mi_eqb_spec). destruct (existsb _ _); [apply Hk; now right|].
      rewrite in_app_iff. intros [H|[H|[]]]; [revert H; apply Hk; now right|].
      apply unit_inj in H; auto with datatypes. congruence.
Qed.
Lemma sum_single {A} (dec : forall x y : A, {x = y} + {x <> y}) (l : list A) (g : A -> F) (P : A -> Prop) (d : forall x, {P x} + {~ P x}) j :
  NoDup l -> In j l -> P j -> (forall x, In x l -> P x -> x = j) ->
  fold_right (fun x s => fadd (if d x then g x else f0) s) f0 l = g j.
Proof.
  induction l as [|x l IH]; intros N I Pj U; [destruct I|]. inversion N as [|? ? N1 N2]; subst. cbn.
  destruct (dec x j) as [->|ne].
  - destruct (d j); [|contradiction].
    assert (E : fold_right (fun x s => fadd (if d x then g x else f0) s) f0 l = f0).
    { clear IH N. assert (H : forall y, In y l -> ~ P y). { intros y Hy Py. assert (y = j) by (apply U; [now right|exact Py]). congruence. }
      clear - H L. induction l as [|y l IH]; [reflexivity|]. cbn. rewrite IH by (intros; apply H; now right).
      destruct (d y) as [Py|]; [exfalso; apply (H y); [now left|exact Py]|]. ring. }
    rewrite E. ring.
  - destruct I as [->|I]; [congruence|]. destruct (d x) as [Px|]; [exfalso; apply ne, U; [now left|exact Px]|].
    rewrite IH; auto with datatypes. ring.
Qed.
Lemma sum_none {A} (l : list A) (g : A -> F) (P : A -> Prop) (d : forall x, {P x} + {~ P x}) :
  (forall x, In x l -> ~ P x) -> fold_right (fun x s => fadd (if d x then g x else f0) s) f0 l = f0.
Proof.
  intros H. induction l as [|y l IH]; [reflexivity|]. cbn. rewrite IH by (intros; apply H; now right).
  destruct (d y) as [Py|]; [exfalso; apply (H y); [now left|exact Py]|]. ring.
Qed.
Lemma axis_ok : exists c, mk_coeffs (axis_dict sh w n) sh [] = Ok c /\ wf_coeffs c /\ c_dom c = sh /\ c_cod c = [] /\
  (forall i a, valid_index sh i -> mi_is a sh (axis i n) -> coeff_at c [] a = w i) /\
  (forall a, (forall i, valid_index sh i -> ~ mi_is a sh (axis i n)) -> coeff_at c [] a = f0) /\
  (forall idx a, idx <> [] -> coeff_at c idx a = f0).
Proof.
  destruct (axis_loop_nodup (all_indices sh) []) as [N S]; [constructor|intros ? ? []|].
  assert (A : forall a, inner_at F (axis_loop (all_indices sh) []) a =
    fold_right (fun i s => fadd (if mi_dec (unit_mi sh i n) a then w i else f0) s) f0 (all_indices sh)).
  { intros a. rewrite axis_loop_at; [unfold inner_at; rewrite esum_nil; ring|apply all_nodup|intros i; now rewrite all_indices_spec|intros i _ []]. }
  assert (W : wf_outer F (axis_dict sh w n) sh []).
  { intros i inn [[= <- <-]|[]]. repeat split; [constructor|]. exact S. }
  eexists. split; [now apply mk_coeffs_ok|]. split; [|split; [|split; [|split; [|split]]]]; try reflexivity.
  - apply wf_join; [|exact W|].
    + cbn. repeat constructor. intros [].
    + intros i inn [[= <- <-]|[]]. exact N.
  - intros i a Hi Ha. rewrite (coeff_atE F L). cbn [c_dict]. unfold axis_dict. rewrite esum_cons', esum_nil.
    destruct (list_eq_dec Z.eq_dec [] []); [|congruence].
    change (fadd (inner_at F (axis_loop (all_indices sh) []) a) f0 = w i). rewrite A.
    rewrite (sum_single (list_eq_dec Nat.eq_dec) _ w (fun j => unit_mi sh j n = a) (fun j => mi_dec (unit_mi sh j n) a) i); [ring|apply all_nodup| | |].
    + now apply all_indices_spec.
    + apply (mi_is_unique _ _ sh (axis i n)); [apply unit_is|exact Ha].
    + intros j Hj E. apply all_indices_spec in Hj. apply (unit_inj sh j i n); auto.
      rewrite E. apply (mi_is_unique _ _ sh (axis i n)); [exact Ha|apply unit_is].
  - intros a Ha. rewrite (coeff_atE F L). cbn [c_dict]. unfold axis_dict. rewrite esum_cons', esum_nil.
    destruct (list_eq_dec Z.eq_dec [] []); [|congruence].
    change (fadd (inner_at F (axis_loop (all_indices sh) []) a) f0 = f0). rewrite A.
    rewrite (sum_none _ w (fun j => unit_mi sh j n = a)); [ring|].
    intros j Hj E. apply all_indices_spec in Hj. apply (Ha j Hj). rewrite <- E. apply unit_is.
  - intros idx a Hi. rewrite (coeff_atE F L). cbn [c_dict]. unfold axis_dict. rewrite esum_cons', esum_nil.
    destruct (list_eq_dec Z.eq_dec [] idx); [congruence|]. ring.
Qed.
End Axis.
