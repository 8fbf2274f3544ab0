(** Property theorems C11 to C14. *)
From Coq Require Import List Reals Lra Lia Bool Arith ZArith.
From Verif Require Import Base NdArray DomainModel DomainSpec DomainProofs.
Import ListNotations.
Open Scope R_scope.

(** ** Construction *)
Lemma c12_mk_interval dt l u :
  (forall d, mk_interval dt l u = Ok d -> d = Interval dt l u /\ valid d) /\
  (forall e, mk_interval dt l u = Err e <-> (e = ValueError /\ u < l) \/ (e = TypeError /\ l <= u /\ is_floating dt = false)).
Proof.
  unfold mk_interval. destruct (Rltb_spec u l).
  - split; [discriminate|]. intros e. split; [intros [= <-]; auto|]. intros [[-> _]|(-> & H & _)]; [reflexivity|lra].
  - destruct (is_floating dt) eqn:E.
    + split; [intros d [= <-]; cbn; repeat split; auto; lra|]. intros e. split; [discriminate|]. intros [[_ H]|(_ & _ & H)]; [lra|discriminate].
    + split; [discriminate|]. intros e. split; [intros [= <-]; right; repeat split; lra|]. intros [[_ H]|(-> & _)]; [lra|reflexivity].
Qed.
Theorem C12_construct_interval : forall dt l u,
  (forall d, mk_interval dt l u = Ok d -> d = Interval dt l u /\ valid d) /\
  (forall e, mk_interval dt l u = Err e <-> (e = ValueError /\ u < l) \/ (e = TypeError /\ l <= u /\ is_floating dt = false)).
Proof. exact c12_mk_interval. Qed.
Print Assumptions C12_construct_interval.

Lemma c12_mk_point p : array_ok p ->
  (forall d, mk_point p = Ok d -> d = Point p /\ valid d) /\
  (forall e, mk_point p = Err e <-> e = TypeError /\ is_floating (a_dtype p) = false).
Proof.
  intros H. unfold mk_point. destruct (is_floating (a_dtype p)) eqn:E.
  - split; [intros d [= <-]; cbn; auto|]. intros e. split; [discriminate|intros [_ C]; discriminate].
  - split; [discriminate|]. intros e. split; [intros [= <-]; auto|intros [-> _]; reflexivity].
Qed.
Theorem C12_construct_point : forall p, array_ok p ->
  (forall d, mk_point p = Ok d -> d = Point p /\ valid d) /\
  (forall e, mk_point p = Err e <-> e = TypeError /\ is_floating (a_dtype p) = false).
Proof. exact c12_mk_point. Qed.
Print Assumptions C12_construct_point.

Lemma existsb_false {A} (f : A -> bool) l : existsb f l = false <-> Forall (fun x => f x = false) l.
Proof.
  induction l as [|x l IH]; cbn; [split; constructor|]. rewrite orb_false_iff, IH. split; [intros [? ?]; now constructor|inversion 1; auto].
Qed.

Lemma valid_floating d : valid d -> is_floating (ddtype d) = true.
Proof. destruct d; cbn; tauto. Qed.

Lemma c12_mk_prod ds : Forall valid ds ->
  (forall d, mk_prod ds = Ok d <-> exists dt, d = Prod dt ds /\ (forall f, In f ds -> (ndims f <= 1)%nat /\ ddtype f = dt) /\ (ds = [] -> dt = F64)) /\
  (forall d, mk_prod ds = Ok d -> valid d) /\
  (forall e, mk_prod ds = Err e -> e = ValueError).
Proof.
  intros HV.
  assert (A : forall d, mk_prod ds = Ok d <-> exists dt, d = Prod dt ds /\ (forall f, In f ds -> (ndims f <= 1)%nat /\ ddtype f = dt) /\ (ds = [] -> dt = F64)).
  { intros d. destruct ds as [|d0 ds].
    - cbn. split; [intros [= <-]; exists F64; repeat split; contradiction|]. intros (dt & -> & _ & H). now rewrite H.
    - split.
      + unfold mk_prod. destruct (existsb (fun d => (1 <? ndims d)%nat) (d0 :: ds)) eqn:E1; [discriminate|].
        destruct (existsb (fun d => negb (dtype_eqb (ddtype d) (ddtype d0))) (d0 :: ds)) eqn:E2; [discriminate|].
        apply existsb_false in E1. apply existsb_false in E2. rewrite Forall_forall in E1, E2.
        destruct (is_floating (ddtype d0)); [|discriminate]. intros [= <-]. exists (ddtype d0). split; [reflexivity|]. split; [|discriminate].
        intros f Hf. specialize (E1 f Hf). specialize (E2 f Hf). apply Nat.ltb_ge in E1. split; [exact E1|].
        destruct (dtype_eqb_spec (ddtype f) (ddtype d0)); [assumption|discriminate].
      + intros (dt & -> & H & _). apply mk_prod_ok.
        * destruct (H d0 (or_introl eq_refl)) as [_ <-]. apply valid_floating. now inversion HV.
        * apply Forall_forall. exact H.
        * discriminate. }
  split; [exact A|]. split.
  - intros d Hd. apply A in Hd as (dt & -> & H & H0). cbn. split; [|split].
    + destruct ds as [|d0 ds]; [now rewrite H0|]. destruct (H d0 (or_introl eq_refl)) as [_ <-]. apply valid_floating. now inversion HV.
    + now apply all_true_Forall.
    + apply Forall_forall. exact H.
  - unfold mk_prod. intros e. destruct (existsb _ ds); [now intros [= <-]|]. destruct (existsb _ ds); [now intros [= <-]|].
    destruct ds as [|d0 ds]; [discriminate|]. rewrite valid_floating by (now inversion HV). discriminate.
Qed.
Theorem C12_construct_product : forall ds, Forall valid ds ->
  (forall d, mk_prod ds = Ok d <-> exists dt, d = Prod dt ds /\ (forall f, In f ds -> (ndims f <= 1)%nat /\ ddtype f = dt) /\ (ds = [] -> dt = F64)) /\
  (forall d, mk_prod ds = Ok d -> valid d) /\
  (forall e, mk_prod ds = Err e -> e = ValueError).
Proof. exact c12_mk_prod. Qed.
Print Assumptions C12_construct_product.

Lemma pairs_flat bs : pairs (flat_bounds_of bs) = bs.
Proof. induction bs as [|[l u] bs IH]; [reflexivity|]. cbn. unfold flat_bounds_of in IH. now rewrite IH. Qed.
Lemma flat_pairs n l : length l = (n * 2)%nat -> flat_bounds_of (pairs l) = l /\ length (pairs l) = n.
Proof.
  revert l. induction n as [|n IH]; intros l H.
  - destruct l; [auto|discriminate].
  - destruct l as [|x [|y l]]; cbn in H; try lia. injection H as H. cbn. destruct (IH l H) as [H1 H2]. unfold flat_bounds_of in H1. rewrite H1, H2. auto.
Qed.

Lemma c12_mk_box a : array_ok a ->
  (forall d, mk_box a = Ok d <-> exists bs, d = Box (a_dtype a) bs /\ a_shape a = [length bs; 2%nat] /\
      a_data a = flat_map (fun b => [fst b; snd b]) bs /\ is_floating (a_dtype a) = true /\ (forall l u, In (l, u) bs -> l <= u)) /\
  (forall d, mk_box a = Ok d -> valid d) /\
  (forall e, mk_box a = Err e -> e = if is_floating (a_dtype a) then ValueError
       else match a_shape a with [_; 2%nat] => TypeError | _ => ValueError end).
Proof.
  intros Hok.
  assert (FB : forall bs, flat_map (fun b : R * R => [fst b; snd b]) bs = flat_bounds_of bs).
  { intros bs. apply flat_map_ext. now intros [? ?]. }
  assert (A : forall d, mk_box a = Ok d <-> exists bs, d = Box (a_dtype a) bs /\ a_shape a = [length bs; 2%nat] /\
      a_data a = flat_map (fun b => [fst b; snd b]) bs /\ is_floating (a_dtype a) = true /\ (forall l u, In (l, u) bs -> l <= u)).
  { intros d. unfold mk_box, array_ok in *. split.
    - destruct (a_shape a) as [|n [|[|[|[|m]]] [|? ?]]] eqn:ES; try discriminate.
      destruct (is_floating (a_dtype a)) eqn:EF; [|discriminate]. cbn [negb].
      destruct (forallb _ _) eqn:EA; [|discriminate]. destruct (mk_prod _); [|discriminate]. cbn. intros [= <-].
      cbn in Hok. destruct (flat_pairs n (a_data a)) as [P1 P2]; [lia|].
      exists (pairs (a_data a)). rewrite FB, P1, P2. repeat split; try reflexivity.
      intros l u Hin. rewrite forallb_forall in EA. specialize (EA (l, u) Hin). cbn in EA. now destruct (Rleb_spec l u).
    - intros (bs & -> & ES & ED & EF & EA). rewrite ES, EF, ED, FB, pairs_flat. cbn [negb].
      replace (forallb _ bs) with true.
      2:{ symmetry. apply forallb_forall. intros [l u] Hin. specialize (EA l u Hin). destruct (Rleb_spec l u); [reflexivity|contradiction]. }
      assert (E : exists d, mk_prod (box_factors (a_dtype a) bs) = Ok d).
      { destruct bs as [|b bs]; [eexists; reflexivity|]. eexists. apply mk_prod_ok; [exact EF| |discriminate].
        apply Forall_map, Forall_forall. intros [l u] Hin.
        destruct (box_factor_good (a_dtype a) (l, u) EF (EA l u Hin)) as ((_ & G1 & G2) & _). auto. }
      destruct E as [d ->]. reflexivity. }
  split; [exact A|]. split.
  - intros d Hd. apply A in Hd as (bs & -> & _ & _ & HF & HL). cbn. split; [exact HF|]. apply Forall_forall. intros [l u] Hin. now apply HL.
  - intros e. pose proof A as A'. unfold mk_box in *. destruct (a_shape a) as [|n [|[|[|[|m]]] [|? ?]]] eqn:ES;
      try (intros [= <-]; now destruct (is_floating (a_dtype a))).
    destruct (is_floating (a_dtype a)) eqn:EF; cbn [negb]; [|now intros [= <-]].
    destruct (forallb _ _) eqn:EA; [|now intros [= <-]]. destruct (mk_prod _) eqn:EP; [discriminate|].
    cbn. intros _. exfalso. unfold array_ok in Hok. rewrite ES in Hok. cbn in Hok. destruct (flat_pairs n (a_data a)) as [P1 P2]; [lia|].
    assert (X : bind (Err e0) (fun _ : domain => Ok (Box (a_dtype a) (pairs (a_data a)))) = Ok (Box (a_dtype a) (pairs (a_data a)))).
    { apply (A' (Box (a_dtype a) (pairs (a_data a)))). exists (pairs (a_data a)). rewrite FB, P1, P2. repeat split.
      intros l u Hin. rewrite forallb_forall in EA. specialize (EA (l, u) Hin). cbn in EA. now destruct (Rleb_spec l u). }
    discriminate.
Qed.
Theorem C12_construct_box : forall a, array_ok a ->
  (forall d, mk_box a = Ok d <-> exists bs, d = Box (a_dtype a) bs /\ a_shape a = [length bs; 2%nat] /\
      a_data a = flat_map (fun b => [fst b; snd b]) bs /\ is_floating (a_dtype a) = true /\ (forall l u, In (l, u) bs -> l <= u)) /\
  (forall d, mk_box a = Ok d -> valid d) /\
  (forall e, mk_box a = Err e -> e = if is_floating (a_dtype a) then ValueError
       else match a_shape a with [_; 2%nat] => TypeError | _ => ValueError end).
Proof. exact c12_mk_box. Qed.
Print Assumptions C12_construct_box.

(** [asdomain]: domains pass through, two numbers make an interval, two vectors
    the box between them. *)
Lemma flat_bounds_length bs : length (flat_bounds_of bs) = (length bs * 2)%nat.
Proof. unfold flat_bounds_of. induction bs as [|[l u] bs IH]; [reflexivity|]. cbn [flat_map app length Nat.mul Nat.add]. now rewrite IH. Qed.
Lemma stack2_flat xs ys : stack2 xs ys = flat_bounds_of (combine xs ys).
Proof. revert ys. induction xs as [|x xs IH]; intros [|y ys]; cbn; try reflexivity. now rewrite IH. Qed.
Lemma c12_asdomain :
  (forall d, asdomain (DLDomain d) = Ok d) /\
  (forall dt1 dt2 l u, l <= u -> asdomain (DLSeq [mkarray dt1 [] [l]; mkarray dt2 [] [u]]) = Ok (Interval F64 l u)) /\
  (forall dt1 dt2 l u, u < l -> asdomain (DLSeq [mkarray dt1 [] [l]; mkarray dt2 [] [u]]) = Err ValueError) /\
  (forall dt1 dt2 dt ls us, (if dtype_eqb dt1 dt2 then dt = dt1 else dt = F64) -> is_floating dt = true -> Forall2 Rle ls us ->
     asdomain (DLSeq [mkarray dt1 [length ls] ls; mkarray dt2 [length us] us]) = Ok (Box dt (combine ls us))) /\
  (forall args, length args <> 2%nat -> asdomain (DLSeq args) = Err ValueError) /\
  (forall a b, a_shape a <> a_shape b \/ (1 < length (a_shape a))%nat -> asdomain (DLSeq [a; b]) = Err ValueError) /\
  asdomain DLOther = Err ValueError.
Proof.
  split; [reflexivity|]. split; [|split; [|split; [|split; [|split; [|reflexivity]]]]].
  - intros dt1 dt2 l u H. cbn. unfold mk_interval. destruct (Rltb_spec u l); [lra|reflexivity].
  - intros dt1 dt2 l u H. cbn. unfold mk_interval. destruct (Rltb_spec u l); [reflexivity|lra].
  - intros dt1 dt2 dt ls us Hd Hf H. pose proof (Forall2_length _ _ _ H) as L. cbn [asdomain a_shape a_dtype a_data length Nat.eqb andb].
    rewrite L, shape_eqb_refl. replace (promote dt1 dt2) with dt by (now destruct dt1, dt2). rewrite stack2_flat.
    assert (LC : length (combine ls us) = length us) by (rewrite combine_length, L; apply Nat.min_id).
    apply c12_mk_box.
    + unfold array_ok. cbn [a_shape a_data size fold_right]. rewrite flat_bounds_length. cbn. lia.
    + exists (combine ls us). cbn [a_dtype a_shape a_data]. rewrite LC. repeat split; try assumption.
      * apply flat_map_ext. now intros [? ?].
      * clear -H. induction H as [|l u ls us Hlu H IH]; cbn; [contradiction|]. intros l' u' [[= <- <-]|Hin]; [exact Hlu|now apply IH].
  - intros args H. destruct args as [|a [|b [|c l]]]; cbn in *; try reflexivity. lia.
  - intros [dt1 s xs] [dt2 t ys] H. cbn [asdomain a_shape] in *. destruct s as [|n [|m s]], t as [|n' [|m' t]]; cbn [length Nat.eqb andb] in *; try reflexivity.
    + destruct H as [H|H]; [now destruct H|lia].
    + destruct (shape_eqb_spec [n] [n']) as [e|]; [|reflexivity]. destruct H as [H|H]; [now destruct H|lia].
    + now destruct (shape_eqb_spec [n] (n' :: m' :: t)).
Qed.
Theorem C12_asdomain :
  (forall d, asdomain (DLDomain d) = Ok d) /\
  (forall dt1 dt2 l u, l <= u -> asdomain (DLSeq [mkarray dt1 [] [l]; mkarray dt2 [] [u]]) = Ok (Interval F64 l u)) /\
  (forall dt1 dt2 l u, u < l -> asdomain (DLSeq [mkarray dt1 [] [l]; mkarray dt2 [] [u]]) = Err ValueError) /\
  (forall dt1 dt2 dt ls us, (if dtype_eqb dt1 dt2 then dt = dt1 else dt = F64) -> is_floating dt = true -> Forall2 Rle ls us ->
     asdomain (DLSeq [mkarray dt1 [length ls] ls; mkarray dt2 [length us] us]) = Ok (Box dt (combine ls us))) /\
  (forall args, length args <> 2%nat -> asdomain (DLSeq args) = Err ValueError) /\
  (forall a b, a_shape a <> a_shape b \/ (1 < length (a_shape a))%nat -> asdomain (DLSeq [a; b]) = Err ValueError) /\
  asdomain DLOther = Err ValueError.
Proof. exact c12_asdomain. Qed.
Print Assumptions C12_asdomain.

(** Finding: two integer vectors are not converted, unlike two integer scalars. *)
Theorem C12_asdomain_integers_refuted : exists ls us, Forall2 Rle ls us /\
  asdomain (DLSeq [mkarray I64 [length ls] ls; mkarray I64 [length us] us]) = Err TypeError.
Proof. exists [0; 0], [1; 1]. split; [repeat constructor; lra|]. reflexivity. Qed.
Print Assumptions C12_asdomain_integers_refuted.

(** ** C11 *)
Theorem C11_boundary_is_frontier : forall d, valid d -> no_empty_point d ->
  exists parts, boundary d = Ok parts /\ forall xs, (exists p, In p parts /\ in_set p xs) <-> frontier (in_set d) xs.
Proof. exact boundary_is_frontier. Qed.
Print Assumptions C11_boundary_is_frontier.

(** Every part is again a domain of the same dtype and number of coordinates. *)
Lemma c11_parts d : valid d -> no_empty_point d -> (ndims d <= 1)%nat -> forall parts, boundary d = Ok parts ->
  Forall (fun p => valid p /\ ddtype p = ddtype d /\ (ndims p <= 1)%nat /\ exists xs, in_set p xs) parts.
Proof.
  intros V NE N parts E. destruct (boundary_general d V NE) as (parts' & E' & _ & G). assert (parts' = parts) by congruence. subst parts'.
  eapply Forall_impl; [|exact (G N)]. intros p (Vp & Np & Dp). repeat split; try assumption.
  assert (Hx : exists xs, Forall2 inb (flat p) xs).
  { pose proof (flat_le p Vp) as F. induction F as [|b bs Hb _ [xs IH]]; [exists []; constructor|]. exists (fst b :: xs). constructor; [unfold inb; lra|exact IH]. }
  destruct Hx as [xs Hx]. exists xs. now apply in_set_flat.
Qed.
Theorem C11_parts_are_domains : forall d, valid d -> no_empty_point d -> (ndims d <= 1)%nat -> forall parts, boundary d = Ok parts ->
  Forall (fun p => valid p /\ ddtype p = ddtype d /\ (ndims p <= 1)%nat /\ exists xs, in_set p xs) parts.
Proof. exact c11_parts. Qed.
Print Assumptions C11_parts_are_domains.

(** Number of parts of a box: two per side, one for a collapsed side. *)
Lemma product_parts_count dt bs : is_floating dt = true -> Forall (fun b => fst b <= snd b) bs -> forall pre parts,
  product_parts pre (box_factors dt bs) (map simple_boundary (box_factors dt bs)) = Ok parts ->
  length parts = fold_right Nat.add 0%nat (map (fun b => if Req_EM_T (fst b) (snd b) then 1%nat else 2%nat) bs).
Proof.
  intros Hf. induction 1 as [|b bs Hb Hbs IH]; intros pre parts; cbn [box_factors map product_parts].
  - intros [= <-]. reflexivity.
  - fold (box_factors dt bs).
    assert (S : exists ps, simple_boundary (box_factor dt b) = Ok ps /\ length ps = if Req_EM_T (fst b) (snd b) then 1%nat else 2%nat).
    { unfold box_factor, Reqb. destruct (Req_EM_T (fst b) (snd b)); cbn.
      - eexists. split; reflexivity.
      - unfold mk_point. cbn. rewrite Hf. cbn. eexists. split; reflexivity. }
    destruct S as (ps & -> & Lp). cbn [bind].
    destruct (mapM _ ps) as [here|] eqn:EM; [|discriminate]. cbn [bind].
    destruct (product_parts _ _ _) as [rest|] eqn:ER; [|discriminate]. intros [= <-].
    rewrite app_length, (IH _ _ ER). cbn [fold_right]. f_equal. rewrite <- Lp. clear -EM.
    revert here EM. induction ps as [|p ps IH]; intros here; cbn; [intros [= <-]; reflexivity|].
    destruct (mk_prod _); [|discriminate]. cbn. destruct (mapM _ ps); [|discriminate]. intros [= <-]. cbn. f_equal. now apply IH.
Qed.
Theorem C11_box_number_of_parts : forall dt bs parts, valid (Box dt bs) -> boundary (Box dt bs) = Ok parts ->
  length parts = fold_right Nat.add 0%nat (map (fun b => if Req_EM_T (fst b) (snd b) then 1%nat else 2%nat) bs).
Proof.
  intros dt bs parts [Hf Hb]. apply product_parts_count; [exact Hf|]. eapply Forall_impl; [|exact Hb]. now intros [l u].
Qed.
Print Assumptions C11_box_number_of_parts.

Example C11_example : valid (Box F64 [(0, 1); (2, 2); (0, 5)]) /\ no_empty_point (Box F64 [(0, 1); (2, 2); (0, 5)]) /\
  frontier (in_set (Box F64 [(0, 1); (2, 3)])) [0; 5/2] /\ ~ frontier (in_set (Box F64 [(0, 1); (2, 3)])) [1/2; 5/2].
Proof.
  split; [cbn; repeat constructor; lra|]. split; [exact I|]. split.
  - apply (proj2 (frontier_ext _ _ _ (in_set_flat (Box F64 [(0, 1); (2, 3)])))), frontier_flat. split; [repeat constructor; cbn; lra|].
    exists (0, 1), 0. cbn. auto.
  - intros H. apply (proj1 (frontier_ext _ _ _ (in_set_flat (Box F64 [(0, 1); (2, 3)])))), frontier_flat in H.
    destruct H as [_ (b & x & [[= <- <-]|[[= <- <-]|[]]] & E)]; cbn in E; lra.
Qed.

(** ** C12: membership *)
Lemma all_equal_same s x y : length x = size s -> length y = size s ->
  exists b, all_equal s x s y = Ok b /\ (b = true <-> x = y).
Proof.
  intros Lx Ly. unfold all_equal. rewrite broadcast_same. cbn [bind]. eexists. split; [reflexivity|].
  rewrite forallb_forall. split.
  - intros H. apply (nth_ext x y 0 0); [congruence|]. intros n Hn. rewrite Lx in Hn.
    destruct (ravel_surj s n Hn) as (i & Vi & <-). specialize (H i (proj2 (all_indices_spec s i) Vi)).
    rewrite operand_index_id in H by exact Vi. unfold lookup in H. destruct (Reqb_spec (nth (ravel s i) x 0) (nth (ravel s i) y 0)); [assumption|discriminate].
  - intros -> i Hi. apply all_indices_spec in Hi. destruct (Reqb_spec (lookup s y (operand_index s i)) (lookup s y (operand_index s i))); [reflexivity|congruence].
Qed.

Lemma c12_contains d item : valid d -> (match d with Prod _ _ => False | _ => True end) -> array_ok item ->
  exists b, contains d item = Ok b /\ (b = true <-> a_shape item = dshape d /\ in_set d (a_data item)).
Proof.
  intros V NP Hok. destruct d as [dt l u|p|dt bs|dt fs]; [| | |contradiction]; cbn [contains dshape].
  - destruct (shape_eqb_spec (a_shape item) []) as [E|E].
    + eexists. split; [reflexivity|]. unfold array_ok in Hok. rewrite E in Hok. cbn in Hok.
      destruct (a_data item) as [|x [|y l']]; cbn in Hok; try lia. cbn [nth in_set].
      destruct (Rleb_spec l x), (Rleb_spec x u); cbn; (split; [intros H; try discriminate|intros [_ (z & [= <-] & H)]; try reflexivity; try lra]).
      split; [exact E|]. exists x. auto.
    + eexists. split; [reflexivity|]. split; [discriminate|intros [H _]; contradiction].
  - destruct (shape_eqb_spec (a_shape item) (a_shape p)) as [E|E].
    + destruct V as [_ Vp]. unfold array_ok in *. rewrite E in Hok. destruct (all_equal_same (a_shape p) (a_data p) (a_data item) Vp Hok) as (b & Hb & Hi).
      exists b. split; [exact Hb|]. rewrite Hi. cbn. intuition congruence.
    + eexists. split; [reflexivity|]. split; [discriminate|intros [H _]; contradiction].
  - destruct (shape_eqb_spec (a_shape item) [length bs]) as [E|E].
    + eexists. split; [reflexivity|]. unfold array_ok in Hok. rewrite E in Hok. cbn in Hok. rewrite Nat.mul_1_r in Hok. cbn [in_set].
      rewrite box_inb. symmetry in Hok. revert Hok. generalize (a_data item) as xs. clear -E. intros xs L. transitivity (Forall2 inb bs xs); [|tauto].
      clear E. revert xs L. induction bs as [|[l u] bs IH]; intros [|x xs] L; try discriminate; cbn; [split; constructor|].
      injection L as L. specialize (IH xs L). rewrite !andb_true_iff, IH.
      split.
      * intros [[H1 H2] H3]. constructor; [|exact H3]. unfold inb. cbn.
        destruct (Rleb_spec l x); [|discriminate]. destruct (Rleb_spec x u); [|discriminate]. lra.
      * intros H. inversion H as [|? ? ? ? H1 H3]; subst. unfold inb in H1. cbn in H1.
        destruct (Rleb_spec l x); [|lra]. destruct (Rleb_spec x u); [|lra]. auto.
    + eexists. split; [reflexivity|]. split; [discriminate|intros [H _]; contradiction].
Qed.
Theorem C12_membership : forall d item, valid d -> (match d with Prod _ _ => False | _ => True end) -> array_ok item ->
  exists b, contains d item = Ok b /\ (b = true <-> a_shape item = dshape d /\ in_set d (a_data item)).
Proof. exact c12_contains. Qed.
Print Assumptions C12_membership.

(** Membership in a product that is not a box is not available. *)
Theorem C12_product_membership_unavailable : forall dt fs item, contains (Prod dt fs) item = Err NotImplementedError.
Proof. reflexivity. Qed.
Print Assumptions C12_product_membership_unavailable.

(** A box is the product of its factors, which are those of its bounds. *)
Lemma c12_box_factors dt bs : valid (Box dt bs) -> forall xs, in_set (Box dt bs) xs <-> in_set (Prod dt (factors (Box dt bs))) xs.
Proof.
  intros [Hf Hb] xs. rewrite !in_set_flat. cbn [flat factors].
  change (concat (map flat (box_factors dt bs))) with (flats (box_factors dt bs)). rewrite flats_box; [tauto|exact Hf|].
  eapply Forall_impl; [|exact Hb]. now intros [l u].
Qed.
Theorem C12_box_is_product_of_factors : forall dt bs, valid (Box dt bs) ->
  forall xs, in_set (Box dt bs) xs <-> in_set (Prod dt (factors (Box dt bs))) xs.
Proof. exact c12_box_factors. Qed.
Print Assumptions C12_box_is_product_of_factors.

Lemma py_getitem d idx i : (i < length (factors d))%nat -> idx = Z.of_nat i \/ idx = (Z.of_nat i - Z.of_nat (length (factors d)))%Z ->
  prod_getitem d idx = Ok (nth i (factors d) d).
Proof.
  intros Hi H. unfold prod_getitem. set (n := length (factors d)) in *.
  destruct (Z.leb_spec 0 idx), (Z.ltb_spec idx (Z.of_nat n)); cbn [andb].
  - do 2 f_equal. lia.
  - lia.
  - destruct (Z.leb_spec (- Z.of_nat n) idx), (Z.ltb_spec idx 0); cbn [andb]; try lia. do 2 f_equal. lia.
  - lia.
Qed.
Lemma c12_getitem d : (match d with Prod _ _ | Box _ _ => True | _ => False end) ->
  (forall idx i, (i < length (factors d))%nat -> idx = Z.of_nat i \/ idx = (Z.of_nat i - Z.of_nat (length (factors d)))%Z ->
     exists f, nth_error (factors d) i = Some f /\ prod_getitem d idx = Ok f) /\
  (forall idx, (idx < - Z.of_nat (length (factors d)) \/ Z.of_nat (length (factors d)) <= idx)%Z -> prod_getitem d idx = Err IndexError) /\
  (forall dt bs i b, d = Box dt bs -> nth_error bs i = Some b ->
     nth_error (factors d) i = Some (if Req_EM_T (fst b) (snd b) then Point (mkarray dt [] [fst b]) else Interval dt (fst b) (snd b))).
Proof.
  intros _. split; [|split].
  - intros idx i Hi H. exists (nth i (factors d) d). split; [now apply nth_error_nth'|now apply py_getitem].
  - intros idx H. unfold prod_getitem. set (n := length (factors d)) in *.
    destruct (Z.leb_spec 0 idx), (Z.ltb_spec idx (Z.of_nat n)); cbn [andb]; try lia;
    destruct (Z.leb_spec (- Z.of_nat n) idx), (Z.ltb_spec idx 0); cbn [andb]; try lia; reflexivity.
  - intros dt bs i b -> H. cbn [factors]. unfold box_factors. rewrite nth_error_map, H. cbn. unfold box_factor, Reqb. now destruct (Req_EM_T (fst b) (snd b)).
Qed.
Theorem C12_factor_access : forall d, (match d with Prod _ _ | Box _ _ => True | _ => False end) ->
  (forall idx i, (i < length (factors d))%nat -> idx = Z.of_nat i \/ idx = (Z.of_nat i - Z.of_nat (length (factors d)))%Z ->
     exists f, nth_error (factors d) i = Some f /\ prod_getitem d idx = Ok f) /\
  (forall idx, (idx < - Z.of_nat (length (factors d)) \/ Z.of_nat (length (factors d)) <= idx)%Z -> prod_getitem d idx = Err IndexError) /\
  (forall dt bs i b, d = Box dt bs -> nth_error bs i = Some b ->
     nth_error (factors d) i = Some (if Req_EM_T (fst b) (snd b) then Point (mkarray dt [] [fst b]) else Interval dt (fst b) (snd b))).
Proof. exact c12_getitem. Qed.
Print Assumptions C12_factor_access.

(** Selecting several positions of a box or product. *)
Lemma c12_select :
  (forall dt bs sel, valid (Box dt bs) -> (forall i, In i sel -> (i < length bs)%nat) ->
     prod_select (Box dt bs) sel = Ok (Box dt (map (fun i => nth i bs (0, 0)) sel))) /\
  (forall dt fs sel, valid (Prod dt fs) -> (forall i, In i sel -> (i < length fs)%nat) -> sel <> [] ->
     prod_select (Prod dt fs) sel = Ok (Prod dt (map (fun i => nth i fs (Prod dt fs)) sel))).
Proof.
  split.
  - intros dt bs sel [Hf Hb] Hs. cbn [prod_select].
    set (bs' := map (fun i => nth i bs (0, 0)) sel).
    apply c12_mk_box.
    + unfold array_ok. cbn [a_shape a_data]. rewrite flat_bounds_length. unfold bs'. rewrite map_length. cbn. lia.
    + exists bs'. cbn [a_dtype a_shape a_data]. replace (length bs') with (length sel) by (unfold bs'; now rewrite map_length). repeat split; try assumption.
      * apply flat_map_ext. now intros [? ?].
      * intros l u Hin. unfold bs' in Hin. apply in_map_iff in Hin as (i & E & Hi). specialize (Hs i Hi).
        rewrite Forall_forall in Hb. specialize (Hb (nth i bs (0, 0)) (nth_In _ _ Hs)). rewrite E in Hb. exact Hb.
  - intros dt fs sel (Hf & Ha & Hg) Hs Hne. cbn [prod_select]. apply mk_prod_ok; [exact Hf| |].
    + apply Forall_map, Forall_forall. intros i Hi. rewrite Forall_forall in Hg. apply Hg. apply nth_In. now apply Hs.
    + intros E. apply map_eq_nil in E. contradiction.
Qed.
Theorem C12_select :
  (forall dt bs sel, valid (Box dt bs) -> (forall i, In i sel -> (i < length bs)%nat) ->
     prod_select (Box dt bs) sel = Ok (Box dt (map (fun i => nth i bs (0, 0)) sel))) /\
  (forall dt fs sel, valid (Prod dt fs) -> (forall i, In i sel -> (i < length fs)%nat) -> sel <> [] ->
     prod_select (Prod dt fs) sel = Ok (Prod dt (map (fun i => nth i fs (Prod dt fs)) sel))).
Proof. exact c12_select. Qed.
Print Assumptions C12_select.

(** Indexing an interval; finding: an index out of range is not raised but an
    exception object is returned. *)
Theorem C12_interval_getitem : forall l u,
  interval_getitem l u 0 = GotNumber l /\ interval_getitem l u 1 = GotNumber u /\
  interval_getitem l u (-1) = GotNumber u /\ interval_getitem l u (-2) = GotNumber l.
Proof. repeat split. Qed.
Print Assumptions C12_interval_getitem.
Theorem C12_interval_getitem_range_refuted : exists l u idx, (idx < -2 \/ 2 <= idx)%Z /\
  interval_getitem l u idx = GotException KeyError.
Proof. exists 0, 1, 2%Z. split; [lia|reflexivity]. Qed.
Print Assumptions C12_interval_getitem_range_refuted.

(** The shape of a product counts its coordinates. *)
Lemma dim_flat d : valid d -> length (flat d) = dim d.
Proof.
  induction d as [dt l u|p|dt bs|dt fs IH] using domain_ind'; cbn [valid flat dim]; try reflexivity.
  - intros [_ H]. now rewrite map_length.
  - intros (_ & H & _). apply all_true_Forall in H. induction IH as [|f fs Hf _ IHfs]; [reflexivity|].
    inversion H; subst. cbn. rewrite app_length, Hf by assumption. f_equal. now apply IHfs.
Qed.
Lemma ndims_dim d : valid d -> (ndims d <= 1)%nat -> dim d = match dshape d with [n] => n | _ => 1%nat end.
Proof.
  induction d as [dt l u|p|dt bs|dt fs IH] using domain_ind'; cbn [valid dim dshape]; try reflexivity.
  - unfold ndims. cbn. intros _ H. destruct (a_shape p) as [|n [|m s]]; cbn in *; try lia.
  - intros (_ & H & G) _. apply all_true_Forall in H. f_equal. induction IH as [|f fs Hf _ IHfs]; [reflexivity|].
    inversion H; subst. inversion G as [|? ? [G1 _] G2]; subst. cbn. rewrite Hf by assumption. f_equal. now apply IHfs.
Qed.
Lemma c12_shape d xs : valid d -> (ndims d <= 1)%nat -> in_set d xs -> length xs = size (dshape d).
Proof.
  intros V N H. apply in_set_flat, Forall2_length in H. rewrite <- H, (dim_flat d V), (ndims_dim d V N).
  unfold ndims in N. destruct (dshape d) as [|n [|m s]]; cbn in *; lia.
Qed.
Theorem C12_shape_counts_coordinates : forall d xs, valid d -> (ndims d <= 1)%nat -> in_set d xs -> length xs = size (dshape d).
Proof. exact c12_shape. Qed.
Print Assumptions C12_shape_counts_coordinates.

(** ** C12: volume *)
Lemma fold_left_mult l v : fold_left Rmult l v = v * fold_right Rmult 1 l.
Proof. revert v. induction l as [|x l IH]; intros v; cbn; [ring|]. rewrite IH. ring. Qed.

Lemma mapM_id (vs : list (result R)) : (exists l, mapM (fun v => v) vs = Ok l /\ vs = map Ok l) \/ (exists e, mapM (fun v => v) vs = Err e /\ In (Err e) vs).
Proof.
  induction vs as [|v vs IH]; [left; exists []; auto|]. cbn. destruct v as [v|e]; cbn; [|right; exists e; auto].
  destruct IH as [(l & -> & ->)|(e & -> & H)]; cbn; [left; exists (v :: l); auto|right; exists e; auto].
Qed.

Lemma c12_volume :
  (forall dt l u, volume (Interval dt l u) = Ok (u - l)) /\
  (forall p, volume (Point p) = Ok 0) /\
  (forall dt bs, bs <> [] -> volume (Box dt bs) = Ok (widths bs)) /\
  (forall dt fs vs, fs <> [] -> map volume fs = map Ok vs -> volume (Prod dt fs) = Ok (fold_right Rmult 1 vs)) /\
  (forall dt, volume (Box dt []) = Err TypeError) /\ (forall dt, volume (Prod dt []) = Err TypeError).
Proof.
  split; [reflexivity|]. split; [reflexivity|]. split; [|split; [|split; reflexivity]].
  - intros dt bs Hne. cbn [volume]. unfold reduce_mul.
    assert (E : map simple_volume (box_factors dt bs) = map Ok (map (fun '(l, u) => u - l) bs)).
    { unfold box_factors. rewrite !map_map. apply map_ext. intros [l u]. unfold box_factor. cbn [fst snd].
      destruct (Reqb_spec l u) as [->|]; cbn; [now rewrite Rminus_diag_eq|reflexivity]. }
    rewrite E. destruct (mapM_id (map Ok (map (fun '(l, u) => u - l) bs))) as [(l & -> & El)|(e & _ & Hin)].
    + cbn [bind]. assert (l = map (fun '(l, u) => u - l) bs).
      { clear -El. revert El. generalize (map (fun '(l, u) => u - l) bs) as m. intros m. revert l. induction m as [|x m IH]; intros [|y l]; cbn; try discriminate; [reflexivity|]. intros [= -> H]. f_equal. now apply IH. }
      subst l. unfold widths. destruct bs as [|b bs]; [congruence|]. cbn [map]. rewrite fold_left_mult. reflexivity.
    + apply in_map_iff in Hin as (x & Hx & _). discriminate.
  - intros dt fs vs Hne E. cbn [volume]. unfold reduce_mul. rewrite E.
    destruct (mapM_id (map Ok vs)) as [(l & -> & El)|(e & _ & Hin)].
    + cbn [bind]. assert (l = vs).
      { clear -El. revert l El. induction vs as [|x m IH]; intros [|y l]; cbn; try discriminate; [reflexivity|]. intros [= -> H]. f_equal. now apply IH. }
      subst l. destruct vs as [|v vs]; [destruct fs; [congruence|discriminate]|]. rewrite fold_left_mult. reflexivity.
    + apply in_map_iff in Hin as (x & Hx & _). discriminate.
Qed.
Theorem C12_volume :
  (forall dt l u, volume (Interval dt l u) = Ok (u - l)) /\
  (forall p, volume (Point p) = Ok 0) /\
  (forall dt bs, bs <> [] -> volume (Box dt bs) = Ok (widths bs)) /\
  (forall dt fs vs, fs <> [] -> map volume fs = map Ok vs -> volume (Prod dt fs) = Ok (fold_right Rmult 1 vs)) /\
  (forall dt, volume (Box dt []) = Err TypeError) /\ (forall dt, volume (Prod dt []) = Err TypeError).
Proof. exact c12_volume. Qed.
Print Assumptions C12_volume.

Lemma prod_nonneg l : Forall (fun v => 0 <= v) l -> 0 <= fold_right Rmult 1 l.
Proof. induction 1; cbn; [lra|]. now apply Rmult_le_pos. Qed.
Lemma prod_zero l : fold_right Rmult 1 l = 0 <-> In 0 l.
Proof.
  induction l as [|x l IH]; cbn; [split; [lra|contradiction]|]. rewrite <- IH. split.
  - intros H. apply Rmult_integral in H. intuition auto.
  - intros [->|H]; [ring|rewrite H; ring].
Qed.
Lemma c12_volume_sign d v : valid d -> volume d = Ok v -> 0 <= v /\ (v = 0 <-> degenerate d).
Proof.
  revert v. destruct c12_volume as (_ & _ & VB & VP & VB0 & VP0).
  induction d as [dt l u|p|dt bs|dt fs IH] using domain_ind'; intros v V E.
  - injection E as <-. destruct V as [_ V]. cbn. split; [lra|]. split; lra.
  - injection E as <-. cbn. split; [lra|tauto].
  - destruct bs as [|b bs]; [rewrite VB0 in E; discriminate|]. rewrite VB in E by discriminate. injection E as <-.
    destruct V as [_ V]. unfold widths. split.
    + apply prod_nonneg. apply Forall_map. eapply Forall_impl; [|exact V]. intros [l u]. lra.
    + rewrite prod_zero, in_map_iff. cbn [degenerate]. rewrite Exists_exists. split.
      * intros ([l u] & H & Hin). exists (l, u). split; [exact Hin|lra].
      * intros ([l u] & Hin & H). exists (l, u). split; [lra|exact Hin].
  - destruct fs as [|f0 fs0]; [rewrite VP0 in E; discriminate|]. set (fs := f0 :: fs0) in *.
    assert (Hvs : exists vs, map volume fs = map Ok vs).
    { cbn [volume] in E. unfold reduce_mul in E. destruct (mapM_id (map volume fs)) as [(l & _ & El)|(e & El & _)]; [exists l; exact El|].
      rewrite El in E. discriminate. }
    destruct Hvs as [vs Hvs]. rewrite (VP dt fs vs) in E by (try assumption; discriminate). injection E as <-.
    destruct V as (_ & V & _). apply all_true_Forall in V. clearbody fs.
    assert (A : Forall (fun v => 0 <= v) vs /\ (In 0 vs <-> fold_right or False (map degenerate fs))).
    { revert vs Hvs. induction IH as [|f fs Hf _ IHfs]; intros [|v vs] Hvs; try discriminate; [cbn; split; [constructor|tauto]|].
      injection Hvs as Ev Hvs. inversion V; subst. destruct (Hf v ltac:(assumption) Ev) as [S1 S2].
      destruct (IHfs ltac:(assumption) vs Hvs) as [S3 S4]. split; [now constructor|]. cbn. rewrite <- S4, <- S2. tauto. }
    destruct A as [A1 A2]. split; [now apply prod_nonneg|]. rewrite prod_zero. exact A2.
Qed.
Theorem C12_volume_sign : forall d v, valid d -> volume d = Ok v -> 0 <= v /\ (v = 0 <-> degenerate d).
Proof. exact c12_volume_sign. Qed.
Print Assumptions C12_volume_sign.

Example C12_example : exists d, mk_box (mkarray F64 [2%nat; 2%nat] [0; 1; 2; 5]) = Ok d /\ volume d = Ok 3 /\
  contains d (mkarray F64 [2%nat] [1; 2]) = Ok true.
Proof.
  exists (Box F64 [(0, 1); (2, 5)]). split; [|split].
  - apply c12_mk_box; [reflexivity|]. exists [(0, 1); (2, 5)]. repeat split. intros l u [[= <- <-]|[[= <- <-]|[]]]; lra.
  - destruct c12_volume as (_ & _ & VB & _). rewrite VB by discriminate. unfold widths. cbn. f_equal. lra.
  - assert (V : valid (Box F64 [(0, 1); (2, 5)])) by (cbn; repeat constructor; lra).
    destruct (c12_contains _ (mkarray F64 [2%nat] [1; 2]) V I eq_refl) as (b & -> & H). f_equal. apply H. split; [reflexivity|]. cbn. repeat constructor; lra.
Qed.

(** ** C13 *)
Lemma dom_eq_prod dt1 fs dt2 gs : dom_eq (Prod dt1 fs) (Prod dt2 gs) =
  match fs, gs with f :: fs', g :: gs' => bind (dom_eq f g) (fun b => if b then dom_eq (Prod dt1 fs') (Prod dt2 gs') else Ok false) | _, _ => Ok true end.
Proof. destruct fs, gs; reflexivity. Qed.
Lemma aligned_prod dt1 fs dt2 gs : aligned (Prod dt1 fs) (Prod dt2 gs) =
  match fs, gs with [], [] => True | f :: fs', g :: gs' => aligned f g /\ aligned (Prod dt1 fs') (Prod dt2 gs') | _, _ => False end.
Proof. destruct fs, gs; reflexivity. Qed.


(** Aligned domains: equality of objects is equality of the bounding data. *)
Lemma eq_flat d1 : forall d2, valid d1 -> valid d2 -> aligned d1 d2 -> exists b, dom_eq d1 d2 = Ok b /\ (b = true <-> flat d1 = flat d2) /\ length (flat d1) = length (flat d2).
Proof.
  induction d1 as [dt l u|p|dt bs|dt fs IH] using domain_ind'; intros d2 V1 V2 A; destruct d2 as [dt' l' u'|p'|dt' bs'|dt' gs]; try contradiction.
  - eexists. split; [reflexivity|]. split; [|reflexivity]. cbn. destruct (Reqb_spec l l'), (Reqb_spec u u'); cbn; split; intros H; try congruence; try discriminate; subst; reflexivity.
  - cbn [aligned] in A. cbn [dom_eq flat]. destruct V1 as [_ V1], V2 as [_ V2]. unfold array_ok in *. rewrite <- A in *.
    destruct (all_equal_same (a_shape p) (a_data p) (a_data p') V1 V2) as (b & -> & Hb). exists b. split; [reflexivity|]. rewrite Hb.
    split; [|rewrite !map_length; congruence]. split; [now intros ->|]. generalize (a_data p) (a_data p'). clear. intros l m. revert m.
    induction l as [|x l IH]; intros [|y m]; cbn; try discriminate; [reflexivity|]. intros H. injection H as -> H. f_equal. now apply IH.
  - cbn [aligned] in A. cbn [dom_eq flat]. rewrite <- A.
    destruct (all_equal_same [length bs; 2%nat] (flat_bounds_of bs) (flat_bounds_of bs')) as (b & -> & Hb).
    { rewrite flat_bounds_length. cbn. lia. } { rewrite flat_bounds_length. cbn. lia. }
    exists b. split; [reflexivity|]. split; [|reflexivity]. rewrite Hb. split; [|now intros ->]. intros H.
    rewrite <- (pairs_flat bs), <- (pairs_flat bs'). now rewrite H.
  - destruct V1 as (_ & V1 & _), V2 as (_ & V2 & _). apply all_true_Forall in V1. apply all_true_Forall in V2. cbn [flat].
    revert gs V2 A. induction IH as [|f fs Hf _ IHfs]; intros [|g gs] V2 A; rewrite aligned_prod in A; try contradiction.
    + exists true. repeat split.
    + destruct A as [Af Afs]. inversion V1; subst. inversion V2; subst. rewrite dom_eq_prod.
      destruct (Hf g ltac:(assumption) ltac:(assumption) Af) as (b & -> & Hb & Lb). cbn [bind].
      destruct (IHfs ltac:(assumption) gs ltac:(assumption) Afs) as (b' & E' & Hb' & Lb'). cbn [map concat].
      exists (if b then b' else false). split; [now destruct b|]. split; [|rewrite !app_length; congruence].
      destruct b.
      * rewrite Hb'. rewrite (proj1 Hb eq_refl). split; [now intros ->|apply app_inv_head].
      * split; [discriminate|]. intros H. apply app_eq_app in H as (r & [[E1 E2]|[E1 E2]]).
        -- assert (r = []) by (destruct r; [reflexivity|]; rewrite E1, app_length in Lb; cbn in Lb; lia). subst r. rewrite app_nil_r in E1. now apply Hb in E1.
        -- assert (r = []) by (destruct r; [reflexivity|]; rewrite E1, app_length in Lb; cbn in Lb; lia). subst r. rewrite app_nil_r in E1. symmetry in E1. now apply Hb in E1.
Qed.

Lemma flat_determined b1 : forall b2, Forall (fun b => fst b <= snd b) b1 -> Forall (fun b => fst b <= snd b) b2 ->
  (forall xs, Forall2 inb b1 xs <-> Forall2 inb b2 xs) -> b1 = b2.
Proof.
  induction b1 as [|[l u] b1 IH]; intros [|[l' u'] b2] F1 F2 H.
  - reflexivity.
  - exfalso. assert (X : Forall2 inb ((l', u') :: b2) []) by (apply H; constructor). inversion X.
  - exfalso. assert (X : Forall2 inb ((l, u) :: b1) []) by (apply H; constructor). inversion X.
  - inversion F1 as [|? ? L1 F1']; subst. inversion F2 as [|? ? L2 F2']; subst. cbn in L1, L2.
    assert (N1 : exists xs, Forall2 inb b1 xs).
    { clear -F1'. induction F1' as [|b bs Hb _ [xs IH]]; [exists []; constructor|]. exists (fst b :: xs). constructor; [unfold inb; lra|exact IH]. }
    assert (N2 : exists xs, Forall2 inb b2 xs).
    { clear -F2'. induction F2' as [|b bs Hb _ [xs IH]]; [exists []; constructor|]. exists (fst b :: xs). constructor; [unfold inb; lra|exact IH]. }
    destruct N1 as [x1 N1], N2 as [x2 N2].
    assert (K : forall x xs, (l <= x <= u /\ Forall2 inb b1 xs) <-> (l' <= x <= u' /\ Forall2 inb b2 xs)).
    { intros x xs. specialize (H (x :: xs)). split; intros [Hx Hxs].
      - assert (X : Forall2 inb ((l', u') :: b2) (x :: xs)) by (apply H; constructor; assumption). inversion X as [|? ? ? ? Y1 Y2]; subst. split; assumption.
      - assert (X : Forall2 inb ((l, u) :: b1) (x :: xs)) by (apply H; constructor; assumption). inversion X as [|? ? ? ? Y1 Y2]; subst. split; assumption. }
    assert (l' <= l <= u') by (apply (K l x1); split; [lra|assumption]).
    assert (l' <= u <= u') by (apply (K u x1); split; [lra|assumption]).
    assert (l <= l' <= u) by (apply (K l' x2); split; [lra|assumption]).
    assert (l <= u' <= u) by (apply (K u' x2); split; [lra|assumption]).
    f_equal; [f_equal; lra|]. apply IH; try assumption. intros xs. split; intros Hxs.
    + apply (K l xs). split; [lra|assumption].
    + apply (K l xs). split; [lra|assumption].
Qed.

Lemma c13_eq d1 d2 : valid d1 -> valid d2 -> aligned d1 d2 ->
  exists b, dom_eq d1 d2 = Ok b /\ (b = true <-> forall xs, in_set d1 xs <-> in_set d2 xs).
Proof.
  intros V1 V2 A. destruct (eq_flat d1 d2 V1 V2 A) as (b & E & Hb & _). exists b. split; [exact E|]. rewrite Hb. split.
  - intros H xs. rewrite !in_set_flat, H. tauto.
  - intros H. apply flat_determined; [now apply flat_le|now apply flat_le|]. intros xs. rewrite <- !in_set_flat. apply H.
Qed.
(** Between domains of the same form, == decides equality of the sets. *)
Theorem C13_equality : forall d1 d2, valid d1 -> valid d2 -> aligned d1 d2 ->
  exists b, dom_eq d1 d2 = Ok b /\ (b = true <-> forall xs, in_set d1 xs <-> in_set d2 xs).
Proof. exact c13_eq. Qed.
Print Assumptions C13_equality.

Lemma aligned_refl d : aligned d d.
Proof.
  induction d as [dt l u|p|dt bs|dt fs IH] using domain_ind'; try reflexivity; try exact I.
  induction IH as [|f fs Hf _ IHfs]; [exact I|]. rewrite aligned_prod. auto.
Qed.
Theorem C13_reflexive : forall d, valid d -> dom_eq d d = Ok true.
Proof.
  intros d V. destruct (c13_eq d d V V (aligned_refl d)) as (b & -> & Hb). f_equal. apply Hb. tauto.
Qed.
Print Assumptions C13_reflexive.

(** Domains of different classes are never equal. *)
Theorem C13_different_classes : forall dt l u p dt' bs dt'' fs,
  dom_eq (Interval dt l u) (Point p) = Ok false /\ dom_eq (Point p) (Interval dt l u) = Ok false /\
  dom_eq (Interval dt l u) (Box dt' bs) = Ok false /\ dom_eq (Box dt' bs) (Interval dt l u) = Ok false /\
  dom_eq (Interval dt l u) (Prod dt'' fs) = Ok false /\ dom_eq (Prod dt'' fs) (Interval dt l u) = Ok false /\
  dom_eq (Point p) (Box dt' bs) = Ok false /\ dom_eq (Box dt' bs) (Point p) = Ok false /\
  dom_eq (Point p) (Prod dt'' fs) = Ok false /\ dom_eq (Prod dt'' fs) (Point p) = Ok false /\
  dom_eq (Box dt' bs) (Prod dt'' fs) = Ok false /\ dom_eq (Prod dt'' fs) (Box dt' bs) = Ok false.
Proof. intros. repeat split. Qed.
Print Assumptions C13_different_classes.

(** Findings: without alignment, == also identifies different sets. *)
Theorem C13_product_prefix_refuted : exists d1 d2, valid d1 /\ valid d2 /\ dom_eq d1 d2 = Ok true /\
  exists xs, in_set d2 xs /\ ~ in_set d1 xs.
Proof.
  exists (Prod F64 [Interval F64 0 1]), (Prod F64 [Interval F64 0 1; Interval F64 0 1]).
  split; [|split; [|split]].
  - cbn. repeat split; try lra. repeat constructor; unfold ndims; cbn; lia.
  - cbn. repeat split; try lra. repeat constructor; unfold ndims; cbn; lia.
  - cbn. destruct (Reqb_spec 0 0); [|congruence]. destruct (Reqb_spec 1 1); [|congruence]. reflexivity.
  - exists [0; 0]. rewrite !in_set_flat. split; [repeat constructor; cbn; lra|].
    intros H. apply Forall2_length in H. discriminate.
Qed.
Print Assumptions C13_product_prefix_refuted.

Theorem C13_box_broadcast_refuted : exists d1 d2, valid d1 /\ valid d2 /\ dom_eq d1 d2 = Ok true /\
  exists xs, in_set d2 xs /\ ~ in_set d1 xs.
Proof.
  exists (Box F64 [(0, 1)]), (Box F64 [(0, 1); (0, 1)]).
  split; [|split; [|split]].
  - cbn. split; [reflexivity|]. repeat constructor; lra.
  - cbn. split; [reflexivity|]. repeat constructor; lra.
  - cbn. unfold lookup. cbn. destruct (Reqb_spec 0 0); [|congruence]. destruct (Reqb_spec 1 1); [|congruence]. reflexivity.
  - exists [0; 0]. rewrite !in_set_flat. split; [repeat constructor; cbn; lra|].
    intros H. apply Forall2_length in H. discriminate.
Qed.
Print Assumptions C13_box_broadcast_refuted.

Theorem C13_point_broadcast_refuted : exists d1 d2, valid d1 /\ valid d2 /\ dom_eq d1 d2 = Ok true /\
  exists xs, in_set d2 xs /\ ~ in_set d1 xs.
Proof.
  exists (Point (mkarray F64 [] [0])), (Point (mkarray F64 [2%nat] [0; 0])).
  split; [|split; [|split]].
  - split; reflexivity.
  - split; reflexivity.
  - cbn. unfold lookup. cbn. destruct (Reqb_spec 0 0); [|congruence]. reflexivity.
  - exists [0; 0]. cbn. split; [reflexivity|discriminate].
Qed.
Print Assumptions C13_point_broadcast_refuted.

Example C13_example : aligned (Prod F64 [Interval F64 0 1; Point (mkarray F64 [2%nat] [1; 2])])
                              (Prod F64 [Interval F64 0 2; Point (mkarray F64 [2%nat] [1; 2])]).
Proof. cbn. auto. Qed.

(** ** C14 *)
Lemma linspace_length a b n : length (linspace a b n) = n.
Proof. unfold linspace. destruct n as [|[|n]]; try reflexivity. now rewrite map_length, seq_length. Qed.
Lemma linspace_nth a b n i : (2 <= n)%nat -> (i < n)%nat -> nth i (linspace a b n) 0 = a + INR i * ((b - a) / INR (n - 1)).
Proof.
  intros Hn Hi. unfold linspace. destruct n as [|[|n]]; try lia.
  rewrite (nth_indep _ 0 (a + INR 0 * ((b - a) / INR (S (S n) - 1)))) by (now rewrite map_length, seq_length).
  rewrite (map_nth (fun i => a + INR i * ((b - a) / INR (S (S n) - 1)))). now rewrite seq_nth by lia.
Qed.
Lemma linspace_in a b n x : a <= b -> In x (linspace a b n) -> a <= x <= b.
Proof.
  intros Hab Hin. destruct n as [|[|n]]; [contradiction|cbn in Hin; destruct Hin as [<-|[]]; lra|].
  apply (In_nth _ _ 0) in Hin as (i & Hi & <-). rewrite linspace_length in Hi. rewrite linspace_nth by lia.
  replace (S (S n) - 1)%nat with (S n) by lia.
  assert (P : 0 < INR (S n)) by (apply lt_0_INR; lia).
  assert (Q : 0 <= INR i <= INR (S n)) by (split; [apply pos_INR|apply le_INR; lia]).
  replace (INR i * ((b - a) / INR (S n))) with ((b - a) * (INR i / INR (S n))) by (field; lra).
  assert (0 <= INR i / INR (S n) <= 1).
  { split; [apply Rmult_le_pos; [lra|left; now apply Rinv_0_lt_compat]|].
    apply (Rmult_le_reg_r (INR (S n))); [exact P|]. unfold Rdiv. rewrite Rmult_assoc, Rinv_l by lra. lra. }
  nra.
Qed.

Lemma c14_interval l u n inset g : interval_grid l u [n] inset = Ok g ->
  length g = n /\
  ((1 <= n)%nat -> nth 0 g 0 = l + inset) /\
  ((2 <= n)%nat -> nth (n - 1) g 0 = u - inset) /\
  (forall i, (S (S i) < n)%nat -> nth (S (S i)) g 0 - nth (S i) g 0 = nth (S i) g 0 - nth i g 0) /\
  (0 <= inset <= (u - l) / 2 -> forall x, In x g -> l <= x <= u).
Proof.
  intros [= <-]. split; [apply linspace_length|]. split; [|split; [|split]].
  - intros Hn. destruct n as [|[|n]]; [lia|reflexivity|]. rewrite linspace_nth by lia. cbn [INR]. ring.
  - intros Hn. rewrite linspace_nth by lia. field. apply not_0_INR. lia.
  - intros i Hi. rewrite !linspace_nth by lia. rewrite !S_INR. ring.
  - intros Hin x Hx. apply linspace_in in Hx; lra.
Qed.
Theorem C14_interval_grid : forall l u n inset g, interval_grid l u [n] inset = Ok g ->
  length g = n /\
  ((1 <= n)%nat -> nth 0 g 0 = l + inset) /\
  ((2 <= n)%nat -> nth (n - 1) g 0 = u - inset) /\
  (forall i, (S (S i) < n)%nat -> nth (S (S i)) g 0 - nth (S i) g 0 = nth (S i) g 0 - nth i g 0) /\
  (0 <= inset <= (u - l) / 2 -> forall x, In x g -> l <= x <= u).
Proof. exact c14_interval. Qed.
Print Assumptions C14_interval_grid.

Theorem C14_interval_grid_shape : forall l u shp inset,
  ((exists g, interval_grid l u shp inset = Ok g) <-> length shp = 1%nat) /\
  (forall e, interval_grid l u shp inset = Err e -> e = AssertionError).
Proof.
  intros l u shp inset. destruct shp as [|n [|m s]]; cbn; split; try (intros e [= <-]; reflexivity); try discriminate;
    (split; [intros [g Hg]; (discriminate || reflexivity)|intros H; (discriminate || (eexists; reflexivity))]).
Qed.
Print Assumptions C14_interval_grid_shape.

(** Box grids. *)
Definition Neqb (b : R * R) : bool := if Req_EM_T (fst b) (snd b) then false else true.
Lemma n_interior_rank bs : n_interior bs = rank bs (length bs).
Proof.
  unfold n_interior, rank. rewrite firstn_all. f_equal. apply filter_ext. intros [l u]. unfold Reqb. cbn. now destruct (Req_EM_T l u).
Qed.
Lemma rank_S b bs i : rank (b :: bs) (S i) = ((if Req_EM_T (fst b) (snd b) then 0 else 1) + rank bs i)%nat.
Proof. unfold rank. cbn. destruct (Req_EM_T (fst b) (snd b)); reflexivity. Qed.

Lemma scatter_nth {A} bs (vals : list A) dflt : length vals = rank bs (length bs) ->
  length (scatter bs vals dflt) = length bs /\
  forall i l u, nth_error bs i = Some (l, u) ->
    nth_error (scatter bs vals dflt) i = if Req_EM_T l u then Some dflt else nth_error vals (rank bs i).
Proof.
  revert vals. induction bs as [|[l u] bs IH]; intros vals L.
  - split; [reflexivity|]. intros [|i] l u H; discriminate.
  - cbn [length] in L. rewrite rank_S in L. cbn [fst snd] in L. cbn [scatter]. unfold Reqb. destruct (Req_EM_T l u) as [E|E].
    + destruct (IH vals L) as [L1 H1]. split; [cbn; now rewrite L1|]. intros [|i] l' u' H; cbn in H.
      * injection H as <- <-. destruct (Req_EM_T l u); [reflexivity|contradiction].
      * cbn [nth_error]. rewrite rank_S. cbn [fst snd]. destruct (Req_EM_T l u); [|contradiction]. now apply H1.
    + destruct vals as [|v vals]; [discriminate|]. cbn in L. injection L as L. destruct (IH vals L) as [L1 H1]. split; [cbn; now rewrite L1|].
      intros [|i] l' u' H; cbn in H.
      * injection H as <- <-. destruct (Req_EM_T l u); [contradiction|reflexivity].
      * cbn [nth_error]. rewrite rank_S. cbn [fst snd]. destruct (Req_EM_T l u); [contradiction|]. cbn. now apply H1.
Qed.

Lemma mapM_nth {A B} (f : A -> result B) l : (forall x, In x l -> exists y, f x = Ok y) ->
  exists ys, mapM f l = Ok ys /\ length ys = length l /\ forall i x, nth_error l i = Some x -> exists y, f x = Ok y /\ nth_error ys i = Some y.
Proof.
  induction l as [|x l IH]; intros H.
  - exists []. repeat split. intros [|i] x Hx; discriminate.
  - destruct (H x (or_introl eq_refl)) as [y Hy]. destruct IH as (ys & E & L & N); [intros z Hz; apply H; now right|].
    cbn. rewrite Hy. cbn. rewrite E. cbn. exists (y :: ys). split; [reflexivity|]. split; [cbn; now rewrite L|].
    intros [|i] z Hz; cbn in *; [injection Hz as <-; exists y; auto|now apply N].
Qed.

Lemma rank_mono bs i l u : nth_error bs i = Some (l, u) -> l <> u -> (rank bs i < rank bs (length bs))%nat.
Proof.
  revert i. induction bs as [|b bs IH]; intros [|i] H Hne; cbn in H; try discriminate.
  - injection H as ->. cbn [length]. rewrite rank_S. cbn [fst snd]. destruct (Req_EM_T l u); [contradiction|]. unfold rank at 1. cbn. lia.
  - cbn [length]. rewrite !rank_S. specialize (IH i H Hne). lia.
Qed.

Lemma nth_error_combine {A B} (l : list A) (m : list B) i a b : nth_error l i = Some a -> nth_error m i = Some b -> nth_error (combine l m) i = Some (a, b).
Proof. revert m i. induction l as [|x l IH]; intros [|y m] [|i] H1 H2; cbn in *; try discriminate; [congruence|]. now apply IH. Qed.

Lemma broadcast_inset_ok inset k ins : broadcast_inset inset k = Ok ins -> length ins = k.
Proof.
  destruct inset as [r|[|r [|r' l]]]; cbn; try (intros [= <-]; apply repeat_length).
  - destruct k; [intros [= <-]; reflexivity|discriminate].
  - destruct k as [|[|k]]; try discriminate. destruct (Nat.eqb_spec (length l) k); [|discriminate]. intros [= <-]. cbn. now f_equal; f_equal.
Qed.

(** What the box grid is. *)
Definition box_grid_spec (bs : list (R * R)) (shp : list nat) (ins : list R) (g : list (list R)) : Prop :=
  length g = length bs /\
  forall i l u f, nth_error bs i = Some (l, u) -> nth_error g i = Some f ->
    if Req_EM_T l u then f = [l]
    else f = linspace (l + nth (rank bs i) ins 0) (u - nth (rank bs i) ins 0) (nth (rank bs i) shp 0%nat).

Lemma c14_box dt bs shp inset ins : length shp = rank bs (length bs) -> broadcast_inset inset (rank bs (length bs)) = Ok ins ->
  exists g, box_grid dt bs shp inset = Ok g /\ box_grid_spec bs shp ins g.
Proof.
  intros Ls Hi. unfold box_grid. rewrite n_interior_rank, Ls, Nat.eqb_refl. cbn [negb]. rewrite Hi. cbn [bind].
  pose proof (broadcast_inset_ok _ _ _ Hi) as Li.
  destruct (scatter_nth bs shp 1%nat Ls) as [A1 A2]. destruct (scatter_nth bs ins 0 Li) as [B1 B2].
  set (C := combine (box_factors dt bs) (combine (scatter bs shp 1%nat) (scatter bs ins 0))).
  assert (LC : length C = length bs).
  { unfold C. rewrite !combine_length. unfold box_factors. rewrite map_length, A1, B1. lia. }
  assert (NC : forall i l u, nth_error bs i = Some (l, u) -> nth_error C i =
     Some (box_factor dt (l, u), if Req_EM_T l u then (1%nat, 0) else (nth (rank bs i) shp 0%nat, nth (rank bs i) ins 0))).
  { intros i l u H. unfold C. specialize (A2 i l u H). specialize (B2 i l u H).
    apply nth_error_combine; [unfold box_factors; now rewrite nth_error_map, H|]. destruct (Req_EM_T l u) as [E|E].
    - now apply nth_error_combine.
    - pose proof (rank_mono bs i l u H E). apply nth_error_combine.
      + rewrite A2. apply nth_error_nth'. lia.
      + rewrite B2. apply nth_error_nth'. lia. }
  assert (GG : forall i l u x, nth_error bs i = Some (l, u) -> nth_error C i = Some x ->
    (fun '(f, (n, i)) => get_grid f n i) x =
      Ok (if Req_EM_T l u then [l] else linspace (l + nth (rank bs i) ins 0) (u - nth (rank bs i) ins 0) (nth (rank bs i) shp 0%nat))).
  { intros i l u x H Hx. rewrite (NC i l u H) in Hx. injection Hx as <-. unfold box_factor, Reqb. cbn [fst snd].
    destruct (Req_EM_T l u); reflexivity. }
  destruct (mapM_nth (fun '(f, (n, i)) => get_grid f n i) C) as (g & Eg & Lg & Ng).
  { intros x Hx. apply In_nth_error in Hx as [i Hx].
    assert (Hlt : (i < length bs)%nat) by (rewrite <- LC; apply nth_error_Some; congruence).
    destruct (nth_error bs i) as [[l u]|] eqn:Eb; [|apply nth_error_None in Eb; lia].
    eexists. apply (GG i l u); assumption. }
  exists g. split; [exact Eg|]. split; [congruence|]. intros i l u f Hb Hf.
  pose proof (NC i l u Hb) as Hc. destruct (Ng i _ Hc) as (y & Hy & Hy').
  rewrite (GG i l u _ Hb Hc) in Hy. injection Hy as <-. rewrite Hf in Hy'. injection Hy' as ->. destruct (Req_EM_T l u); reflexivity.
Qed.

(** The grid of a box is the tensor product of the factor grids; collapsed
    sides contribute one point. *)
Theorem C14_box_grid : forall dt bs shp inset ins, length shp = rank bs (length bs) ->
  broadcast_inset inset (rank bs (length bs)) = Ok ins ->
  exists g, box_grid dt bs shp inset = Ok g /\ box_grid_spec bs shp ins g.
Proof. exact c14_box. Qed.
Print Assumptions C14_box_grid.

(** Insets: a scalar (or one-element vector) applies to every side. *)
Theorem C14_inset_broadcast : forall k r l,
  broadcast_inset (InsetScalar r) k = Ok (repeat r k) /\ broadcast_inset (InsetVec [r]) k = Ok (repeat r k) /\
  (length l = k -> broadcast_inset (InsetVec l) k = Ok l) /\
  (length l <> k -> length l <> 1%nat -> broadcast_inset (InsetVec l) k = Err ValueError).
Proof.
  intros k r l. repeat split.
  - intros H. destruct l as [|x [|y l]]; cbn in *; subst; try reflexivity. now rewrite Nat.eqb_refl.
  - intros H H1. destruct l as [|x [|y l]]; cbn in *; [destruct k; [congruence|reflexivity]|congruence|].
    destruct k as [|[|k]]; try reflexivity. destruct (Nat.eqb_spec (length l) k); [congruence|reflexivity].
Qed.
Print Assumptions C14_inset_broadcast.

Theorem C14_box_grid_shape_checked : forall dt bs shp inset, length shp <> rank bs (length bs) ->
  box_grid dt bs shp inset = Err TypeError.
Proof. intros dt bs shp inset H. unfold box_grid. rewrite n_interior_rank. destruct (Nat.eqb_spec (length shp) (rank bs (length bs))); [contradiction|reflexivity]. Qed.
Print Assumptions C14_box_grid_shape_checked.

Lemma c14_inside bs shp ins g : box_grid_spec bs shp ins g -> Forall (fun '(l, u) => l <= u) bs ->
  (forall i l u, nth_error bs i = Some (l, u) -> l <> u -> 0 <= nth (rank bs i) ins 0 <= (u - l) / 2) ->
  forall dt xs, grid_points g xs -> in_set (Box dt bs) xs.
Proof.
  intros [L N] V I dt xs G. cbn [in_set].
  assert (P : forall i l u x, nth_error bs i = Some (l, u) -> nth_error xs i = Some x -> l <= x <= u).
  { intros i l u x Hb Hx.
    assert (Hg : exists f, nth_error g i = Some f /\ In x f).
    { clear -G Hx. revert i Hx. induction G as [|f y g xs Hy _ IH]; intros [|i] Hx; cbn in *; try discriminate; [injection Hx as <-; exists f; auto|now apply IH]. }
    destruct Hg as (f & Hf & Hin). specialize (N i l u f Hb Hf). specialize (I i l u Hb).
    destruct (Req_EM_T l u) as [E|E].
    - rewrite N in Hin. destruct Hin as [<-|[]]. lra.
    - specialize (I E). rewrite N in Hin. apply linspace_in in Hin; lra. }
  apply Forall2_length in G as LG. clear N I V G. assert (LL : length bs = length xs) by congruence. clear L LG.
  revert xs LL P. induction bs as [|[l u] bs IH]; intros [|x xs] LL P; try discriminate; constructor.
  - apply (P 0%nat); reflexivity.
  - apply IH; [now injection LL|]. intros i l' u' y H1 H2. now apply (P (S i)).
Qed.
(** All grid points lie in the box when the insets fit. *)
Theorem C14_box_grid_inside : forall bs shp ins g, box_grid_spec bs shp ins g -> Forall (fun '(l, u) => l <= u) bs ->
  (forall i l u, nth_error bs i = Some (l, u) -> l <> u -> 0 <= nth (rank bs i) ins 0 <= (u - l) / 2) ->
  forall dt xs, grid_points g xs -> in_set (Box dt bs) xs.
Proof. exact c14_inside. Qed.
Print Assumptions C14_box_grid_inside.

(** Products of intervals, points and boxes without collapsed sides use the grid
    of the box with the same points. *)
Lemma c14_as_box dt fs : valid (Prod dt fs) -> fs <> [] -> no_empty_point (Prod dt fs) ->
  (forall f, In f fs -> match f with Prod _ _ => False | Box _ bs => bs <> [] /\ (forall l u, In (l, u) bs -> l <> u) | _ => True end) ->
  exists bs, as_box dt fs = Ok (Some (Box dt bs)) /\ valid (Box dt bs) /\
    (forall xs, in_set (Box dt bs) xs <-> in_set (Prod dt fs) xs) /\
    forall shp inset, prod_grid (Prod dt fs) shp inset = box_grid dt bs shp inset.
Proof.
  intros V Hne NE H.
  assert (E1 : existsb is_prod fs = false).
  { apply existsb_false, Forall_forall. intros f Hf. specialize (H f Hf). destruct f; cbn; tauto. }
  assert (E2 : mapM as_box_rows fs = Ok (map flat fs)).
  { clear E1 Hne NE. destruct V as (_ & V & _). apply all_true_Forall in V. induction V as [|f fs Vf _ IH]; [reflexivity|]. cbn [mapM map].
    rewrite IH by (intros g Hg; apply H; now right). specialize (H f (or_introl eq_refl)).
    destruct f as [dt' l u|p|dt' bs|dt' gs]; try contradiction; try reflexivity.
    cbn [as_box_rows flat]. destruct H as [_ H].
    replace (mapM _ (box_factors dt' bs)) with (@Ok (list (R * R)) bs); [reflexivity|].
    clear -H. induction bs as [|[l u] bs IHb]; [reflexivity|]. cbn [box_factors map mapM]. unfold box_factor at 1. cbn [fst snd].
    destruct (Reqb_spec l u) as [E|E]; [exfalso; exact (H l u (or_introl eq_refl) E)|]. cbn [bind].
    fold (box_factors dt' bs). rewrite <- IHb by (intros l' u' Hin; apply H; now right). reflexivity. }
  set (bs := concat (map flat fs)).
  assert (Hbs : bs <> []).
  { destruct fs as [|f fs]; [congruence|]. unfold bs. cbn [map concat]. specialize (H f (or_introl eq_refl)). cbn in NE. destruct NE as [NE _].
    destruct f as [dt' l u|p|dt' bs'|dt' gs]; cbn; try contradiction; try discriminate.
    - cbn in NE. destruct (a_data p); [congruence|discriminate].
    - destruct H as [H _]. destruct bs'; [congruence|discriminate]. }
  assert (Vb : valid (Box dt bs)).
  { cbn. split; [apply V|]. pose proof (flat_le (Prod dt fs) V) as F. eapply Forall_impl; [|exact F]. now intros [l u]. }
  assert (EM : mk_box (mkarray dt [length bs; 2%nat] (flat_bounds_of bs)) = Ok (Box dt bs)).
  { apply c12_mk_box; [unfold array_ok; cbn; rewrite flat_bounds_length; lia|]. exists bs. cbn [a_dtype a_shape a_data].
    repeat split; [apply flat_map_ext; now intros [? ?]|apply V|]. intros l u Hin. destruct Vb as [_ Vb]. rewrite Forall_forall in Vb. exact (Vb (l, u) Hin). }
  assert (EA : as_box dt fs = Ok (Some (Box dt bs))).
  { unfold as_box. rewrite E1, E2. cbn [bind]. fold bs. destruct bs as [|b bs']; [congruence|]. rewrite EM. reflexivity. }
  exists bs. split; [exact EA|]. split; [exact Vb|]. split.
  - intros xs. rewrite !in_set_flat. cbn [flat]. tauto.
  - intros shp inset. cbn [prod_grid]. rewrite EA. reflexivity.
Qed.
Theorem C14_product_grid : forall dt fs, valid (Prod dt fs) -> fs <> [] -> no_empty_point (Prod dt fs) ->
  (forall f, In f fs -> match f with Prod _ _ => False | Box _ bs => bs <> [] /\ (forall l u, In (l, u) bs -> l <> u) | _ => True end) ->
  exists bs, as_box dt fs = Ok (Some (Box dt bs)) /\ valid (Box dt bs) /\
    (forall xs, in_set (Box dt bs) xs <-> in_set (Prod dt fs) xs) /\
    forall shp inset, prod_grid (Prod dt fs) shp inset = box_grid dt bs shp inset.
Proof. exact c14_as_box. Qed.
Print Assumptions C14_product_grid.

Theorem C14_nested_product_unavailable : forall dt fs shp inset, (exists dt' gs, In (Prod dt' gs) fs) ->
  prod_grid (Prod dt fs) shp inset = Err NotImplementedError.
Proof.
  intros dt fs shp inset (dt' & gs & H). cbn. unfold as_box.
  replace (existsb is_prod fs) with true; [reflexivity|]. symmetry. apply existsb_exists. exists (Prod dt' gs). auto.
Qed.
Print Assumptions C14_nested_product_unavailable.

(** Finding: a box factor with a collapsed side makes the product grid fail. *)
Theorem C14_collapsed_box_factor_refuted : exists d shp inset, valid d /\ no_empty_point d /\ prod_grid d shp inset = Err TypeError.
Proof.
  exists (Prod F64 [Interval F64 0 1; Box F64 [(0, 1); (2, 2)]]), [2%nat; 2%nat], (InsetScalar 0).
  split; [|split].
  - cbn. repeat split; try lra; repeat constructor; try lra; unfold ndims; cbn; lia.
  - cbn. auto.
  - cbn. unfold box_factor. cbn [fst snd]. destruct (Reqb_spec 0 1); [lra|]. destruct (Reqb_spec 2 2); [|congruence]. reflexivity.
Qed.
Print Assumptions C14_collapsed_box_factor_refuted.

Example C14_example : rank [(0, 1); (2, 2); (0, 4)] 3 = 2%nat /\
  broadcast_inset (InsetScalar (1/10)) 2 = Ok [1/10; 1/10].
Proof.
  split; [|reflexivity]. unfold rank. cbn. destruct (Req_EM_T 0 1); [lra|]. destruct (Req_EM_T 2 2); [|congruence]. destruct (Req_EM_T 0 4); [lra|]. reflexivity.
Qed.
