(** Lemmas about differential operators on tensor products. *)
From Coq Require Import List Arith ZArith Lia Bool.
From Verif Require Import Base NdArray NdData BlockModel BlockSpec CovModel CovSpec CovProofs CrossModel CrossSpec CrossProofs CrossKern
  ParamSpec ParamProofs DiffopModel DiffopSpec DiffopProofs DiffopFactor TensorModel TensorSpec TensorProofs TensorDiffSpec.
Import ListNotations.
Local Open Scope nat_scope.

Lemma key_eqb_spec a b : reflect (a = b) (key_eqb a b).
Proof.
  unfold key_eqb. destruct a as [i [p q]], b as [j [r s]]. cbn [fst snd]. destruct (shape_eqb_spec i j); [|constructor; congruence].
  destruct (Nat.eqb_spec p r); [|constructor; congruence]. destruct (Nat.eqb_spec q s); constructor; congruence.
Qed.
Lemma dget_dset {V} (d : list (index * (nat * nat) * V)) k v k' : dget key_eqb (dset key_eqb d k v) k' = if key_eqb k k' then Some v else dget key_eqb d k'.
Proof.
  induction d as [|[q w] d IH]; cbn [dset dget]; [reflexivity|]. destruct (key_eqb_spec q k) as [->|N]; cbn [dget].
  - destruct (key_eqb_spec k k'); reflexivity.
  - rewrite IH. destruct (key_eqb_spec q k') as [->|]; [|reflexivity]. destruct (key_eqb_spec k k') as [->|]; [contradiction|reflexivity].
Qed.
Local Notation kk m p q := (@pair index (nat * nat) [m] (@pair nat nat p q)).
Lemma indices_one n : all_indices [n] = map (fun m => [m]) (seq 0 n).
Proof. cbn [all_indices map]. generalize 0. induction n as [|n IH]; intros s; [reflexivity|]. cbn [seq flat_map map app]. now rewrite IH. Qed.
Lemma mi_get_ok a n m : mi_shape a = [n] -> m < n -> mi_get a [m] = Ok (mi_entry a [m]).
Proof. intros E H. unfold mi_get. destruct (index_in_spec (mi_shape a) [m]) as [_|N]; [reflexivity|]. destruct N. rewrite E. repeat constructor. exact H. Qed.
Lemma mi_scalar a e : mi_is a [] (fun _ => e) -> a = MI [] [e].
Proof. intros H. apply (mi_is_unique _ _ [] (fun _ => e) H). split; [reflexivity|]. split; [reflexivity|]. intros i Hi. apply valid_index_nil in Hi as ->. reflexivity. Qed.
Lemma dt_pd_ok a n m : mi_shape a = [n] -> m < n -> dt_pd a [m] = Ok (MI [] [mi_entry a [m]]).
Proof.
  intros E H. unfold dt_pd. rewrite (mi_get_ok a n m E H). cbn [bind]. assert (V : valid_index (mi_shape a) [m]) by (rewrite E; repeat constructor; exact H).
  unfold from_index. destruct (index_in_spec (mi_shape a) [m]); [|contradiction]. cbn [bind]. fold (unit_mi (mi_shape a) [m] (mi_entry a [m])).
  pose proof (unit_is (mi_shape a) [m] (mi_entry a [m])) as U.
  destruct (get_factor_ok (unit_mi (mi_shape a) [m] (mi_entry a [m])) [m]) as [b [-> Hb]]; [apply (is_wf _ _ _ U)|exact V|].
  rewrite entry_unit in Hb by exact V. unfold axis in Hb. destruct (list_eq_dec Nat.eq_dec [m] [m]); [|congruence]. f_equal. now apply mi_scalar.
Qed.

Section P.
Context {F : fops} (LF : flaws F).
Add Field Ff : (fl_field F LF).

Lemma terms_ok (L : tdop F) n C : terms L n C -> bind (td_coeffs L) (fun c => c_get c []) = Ok C.
Proof.
  intros [N [W H]]. destruct L as [a|c]; cbn [td_coeffs].
  - subst C. unfold partial_derivative, mk_coeffs. cbn [forallb length Nat.eqb all_lt combine andb]. rewrite shape_eqb_refl. cbn [andb bind].
    unfold c_get. cbn [c_dict dget]. reflexivity.
  - destruct H as [H D]. cbn [bind]. unfold c_get. now rewrite (in_dget _ _ _ ci_eqb_spec _ _ _ D H).
Qed.

(** ** Construction *)
Section Init.
Variables (pdf : nat -> mi -> kfun F -> result (kfun F)) (ks : list (kfun F)) (o0 o1 : shape) (G : nat -> nat -> nat -> index -> index -> F -> F -> F).
Let n := length ks.
(** Every entry of the table is a differentiated factor. *)
Definition table_ok (t : list (index * (nat * nat) * kfun F)) : Prop :=
  forall m p q k, dget key_eqb t (kk m p q) = Some k -> has_values k o0 o1 (G m p q).
Definition covers (t : list (index * (nat * nat) * kfun F)) (a b : mi) (m : nat) : Prop := dget key_eqb t (kk m (mi_entry a [m]) (mi_entry b [m])) <> None.
Definition extends (t t' : list (index * (nat * nat) * kfun F)) : Prop := forall k, dget key_eqb t k <> None -> dget key_eqb t' k <> None.
Definition pair_ok (a b : mi) : Prop := mi_shape a = [n] /\ mi_shape b = [n] /\
  forall m k, nth_error ks m = Some k -> exists k1 k', pdf 1 (MI [] [mi_entry b [m]]) k = Ok k1 /\ pdf 0 (MI [] [mi_entry a [m]]) k1 = Ok k' /\
      has_values k' o0 o1 (G m (mi_entry a [m]) (mi_entry b [m])).
Lemma dt_dims_ok a b : pair_ok a b -> forall l s t, s + l = n -> table_ok t ->
  exists fs t', dt_dims pdf ks a b (map (fun m => [m]) (seq s l)) t = Ok (fs, t') /\ length fs = l /\
    (forall i f, nth_error fs i = Some f -> has_values f o0 o1 (G (s + i) (mi_entry a [s + i]) (mi_entry b [s + i]))) /\
    table_ok t' /\ extends t t' /\ forall m, s <= m < n -> covers t' a b m.
Proof.
  intros [Ea [Eb H]]. induction l as [|l IH]; intros s t Hs T; cbn [seq map dt_dims].
  - exists [], t. split; [reflexivity|]. split; [reflexivity|]. split; [intros [|i] f E; discriminate|]. split; [exact T|]. split; [easy|]. intros; lia.
  - assert (Hn : s < n) by lia. destruct (nth_error ks s) as [k|] eqn:Ek; [|apply nth_error_None in Ek; unfold n in Hn; lia].
    destruct (H s k Ek) as [k1 [k' [E1 [E2 HV]]]].
    assert (DF : dt_factor pdf ks a b [s] = Ok k').
    { unfold dt_factor. rewrite (dt_pd_ok a n s Ea Hn), (dt_pd_ok b n s Eb Hn). cbn [bind nth]. rewrite Ek, E1. cbn [bind]. exact E2. }
    rewrite DF, (mi_get_ok a n s Ea Hn), (mi_get_ok b n s Eb Hn). cbn [bind].
    destruct (IH (S s) (dset key_eqb t (kk s (mi_entry a [s]) (mi_entry b [s])) k')) as [fs [t' [-> [Lf [Vf [T' [X C]]]]]]]; [lia| |].
    { intros m p q k2. rewrite dget_dset. destruct (key_eqb_spec (kk s (mi_entry a [s]) (mi_entry b [s])) (kk m p q)) as [E|]; [|apply T].
      injection E as <- <- <-. intros E. injection E as <-. exact HV. }
    cbn [bind]. exists (k' :: fs), t'. split; [reflexivity|]. split; [cbn [length]; now rewrite Lf|]. split.
    { intros [|i] f E; cbn [nth_error] in E; [injection E as <-; now rewrite Nat.add_0_r|]. specialize (Vf i f E). now rewrite Nat.add_succ_r. }
    split; [exact T'|]. split.
    + intros key HK. apply X. rewrite dget_dset. destruct (key_eqb _ _); [discriminate|exact HK].
    + intros m Hm. destruct (Nat.eq_dec m s) as [->|]; [|apply C; lia]. apply X. rewrite dget_dset. destruct (key_eqb_spec (kk s (mi_entry a [s]) (mi_entry b [s])) (kk s (mi_entry a [s]) (mi_entry b [s]))); [discriminate|congruence].
Qed.
Lemma dt_pairs_ok ps : ks <> [] -> (forall a c0 b c1, In ((a, c0), (b, c1)) ps -> pair_ok a b) -> forall t, table_ok t ->
  exists ss t', dt_pairs pdf ks ps t = Ok (ss, t') /\ length ss = length ps /\
    table_ok t' /\ extends t t' /\ (forall a c0 b c1 m, In ((a, c0), (b, c1)) ps -> m < n -> covers t' a b m) /\
    Forall2 (fun '((a, c0), (b, c1)) '(c, l) => c = fmul c0 c1 /\ length l = n /\ @tensor_ok F l o0 o1 (fun m => G m (mi_entry a [m]) (mi_entry b [m]))) ps ss.
Proof.
  intros N. induction ps as [|[[a c0] [b c1]] ps IH]; intros H t T; cbn [dt_pairs].
  - exists [], t. split; [reflexivity|]. split; [reflexivity|]. split; [exact T|]. split; [easy|]. split; [easy|constructor].
  - destruct (H a c0 b c1 (or_introl eq_refl)) as [Ea [Eb Hp]]. rewrite Ea, indices_one.
    destruct (dt_dims_ok a b (conj Ea (conj Eb Hp)) n 0 t (Nat.add_0_l n) T) as [fs [t1 [-> [Lf [Vf [T1 [X1 C1]]]]]]]. cbn [bind].
    assert (TO : @tensor_ok F fs o0 o1 (fun m => G m (mi_entry a [m]) (mi_entry b [m]))).
    { split; [intros ->; apply N; apply length_zero_iff_nil; symmetry; exact Lf|]. intros m k E. apply (Vf m k E). }
    rewrite (mk_tensor_ok _ _ _ _ TO). cbn [bind].
    destruct (IH (fun a' c0' b' c1' Hi => H a' c0' b' c1' (or_intror Hi)) t1 T1) as [ss [t2 [-> [L2 [T2 [X2 [C2 S2]]]]]]]. cbn [bind].
    exists ((fmul c0 c1, fs) :: ss), t2. split; [reflexivity|]. split; [cbn [length]; now rewrite L2|]. split; [exact T2|]. split; [intros k Hk; apply X2, X1, Hk|]. split.
    + intros a' c0' b' c1' m [E|Hi] Hm; [|now apply (C2 a' c0' b' c1')]. injection E as <- <- <- <-. apply X2. apply C1. lia.
    + constructor; [|exact S2]. split; [reflexivity|]. split; [exact Lf|exact TO].
Qed.
Lemma dt_init_ok L0 L1 C0 C1 : terms L0 n C0 -> terms L1 n C1 -> factors_differentiable pdf ks C0 C1 o0 o1 G ->
  exists d, dt_init pdf ks L0 L1 = Ok d /\ dt_k d = ks /\ dt_L0 d = L0 /\ dt_L1 d = L1 /\ dt_out0 d = o0 /\ dt_out1 d = o1 /\
    table_ok (dt_table d) /\ (forall a c0 b c1 m, In ((a, c0), (b, c1)) (list_prod C0 C1) -> m < n -> covers (dt_table d) a b m) /\
    Forall2 (fun '((a, c0), (b, c1)) '(c, l) => c = fmul c0 c1 /\ length l = n /\ @tensor_ok F l o0 o1 (fun m => G m (mi_entry a [m]) (mi_entry b [m])))
      (list_prod C0 C1) (dt_summands d).
Proof.
  intros T0 T1 [N H]. unfold dt_init. rewrite (terms_ok _ _ _ T0), (terms_ok _ _ _ T1). cbn [bind].
  destruct T0 as [N0 [W0 _]], T1 as [N1 [W1 _]].
  destruct (dt_pairs_ok (list_prod C0 C1) N) with (t := @nil (index * (nat * nat) * kfun F)) as [ss [t [-> [Ls [T [_ [C S]]]]]]].
  - intros a c0 b c1 Hi. apply in_prod_iff in Hi as [Ha Hb]. split; [apply (W0 a c0 Ha)|]. split; [apply (W1 b c1 Hb)|]. intros m k Ek. apply (H a c0 b c1 m k Ha Hb Ek).
  - intros m p q k E. discriminate.
  - cbn [bind]. destruct ss as [|[c l] ss].
    + exfalso. rewrite prod_length in Ls. cbn in Ls. destruct C0; [contradiction|]. destruct C1; [contradiction|]. discriminate.
    + eexists. split; [reflexivity|]. cbn [dt_k dt_L0 dt_L1 dt_table dt_summands]. unfold dt_out0, dt_out1. cbn [dt_summands].
      assert (E : tp_out0 l = o0 /\ tp_out1 l = o1).
      { inversion S as [|[[a c0] [b c1]] y ps ss' HS]; subst. destruct HS as [_ [_ TO]]. apply (tensor_out _ _ _ _ TO). }
      destruct E as [E0 E1]. repeat (split; [first [reflexivity | exact E0 | exact E1 | exact T | exact C]|]). exact S.
Qed.
End Init.

(** ** The memoised evaluation *)
Section Compute.
Context {V : Type} (compute : kfun F -> index -> result V) (mul : V -> V -> result V) (scale : F -> V -> V) (add : V -> V -> result V).
Context {Z : Type} (Sf : nat -> nat -> nat -> V -> Prop) (Show : V -> (Z -> F) -> Prop) (pv : (nat -> nat) -> (nat -> nat) -> Z -> F).
Variables (table : list (index * (nat * nat) * kfun F)) (n : nat).
Hypothesis H_compute : forall m p q k, m < n -> dget key_eqb table (kk m p q) = Some k -> exists v, compute k [m] = Ok v /\ Sf m p q v.
Hypothesis H_mul : forall vs p q, length vs = n -> (forall m v, nth_error vs m = Some v -> Sf m (p m) (q m) v) ->
  exists r, reduce mul vs = Ok r /\ Show r (pv p q).
Hypothesis H_scale : forall c v h, Show v h -> Show (scale c v) (fun z => fmul c (h z)).
Hypothesis H_add : forall v w h h', Show v h -> Show w h' -> exists r, add v w = Ok r /\ Show r (fun z => fadd (h z) (h' z)).
Hypothesis H_ext : forall v h h', (forall z, h z = h' z) -> Show v h -> Show v h'.
Definition memo_ok (memo : list (index * (nat * nat) * V)) : Prop := forall m p q v, m < n -> dget key_eqb memo (kk m p q) = Some v -> Sf m p q v.
Lemma cr_factors_ok a b : mi_shape a = [n] -> mi_shape b = [n] -> (forall m, m < n -> dget key_eqb table (kk m (mi_entry a [m]) (mi_entry b [m])) <> None) ->
  forall l s memo, s + l = n -> memo_ok memo ->
  exists vs memo', cr_factors compute table a b (map (fun m => [m]) (seq s l)) memo = Ok (vs, memo') /\ length vs = l /\
    (forall i v, nth_error vs i = Some v -> Sf (s + i) (mi_entry a [s + i]) (mi_entry b [s + i]) v) /\ memo_ok memo'.
Proof.
  intros Ea Eb C. induction l as [|l IH]; intros s memo Hs M; cbn [seq map cr_factors].
  - exists [], memo. split; [reflexivity|]. split; [reflexivity|]. split; [intros [|i] v E; discriminate|exact M].
  - assert (Hn : s < n) by lia. rewrite (mi_get_ok a n s Ea Hn), (mi_get_ok b n s Eb Hn). cbn [bind].
    set (key := (kk s (mi_entry a [s]) (mi_entry b [s])) : index * (nat * nat)).
    assert (G : exists v memo1, match dget key_eqb memo key with Some v => Ok (v, memo)
       | None => match dget key_eqb table key with None => Err KeyError | Some k => bind (compute k [s]) (fun v => Ok (v, dset key_eqb memo key v)) end end
       = Ok (v, memo1) /\ Sf s (mi_entry a [s]) (mi_entry b [s]) v /\ memo_ok memo1).
    { destruct (dget key_eqb memo key) as [v|] eqn:Em; [exists v, memo; split; [reflexivity|]; split; [apply (M s _ _ v Hn Em)|exact M]|].
      destruct (dget key_eqb table key) as [k|] eqn:Ek; [|destruct (C s Hn Ek)].
      destruct (H_compute s _ _ k Hn Ek) as [v [-> Hv]]. cbn [bind]. exists v, (dset key_eqb memo key v). split; [reflexivity|]. split; [exact Hv|].
      intros m p q w Hm. rewrite dget_dset. destruct (key_eqb_spec key (kk m p q)) as [E|]; [|apply M, Hm].
      unfold key in E. injection E as <- <- <-. intros E. injection E as <-. exact Hv. }
    destruct G as [v [memo1 [-> [Hv M1]]]]. cbn [bind]. destruct (IH (S s) memo1) as [vs [memo' [-> [Lv [Vv M']]]]]; [lia|exact M1|]. cbn [bind].
    exists (v :: vs), memo'. split; [reflexivity|]. split; [cbn [length]; now rewrite Lv|]. split; [|exact M'].
    intros [|i] w E; cbn [nth_error] in E; [injection E as <-; now rewrite Nat.add_0_r|]. rewrite Nat.add_succ_r. apply (Vv i w E).
Qed.
Definition pair_value (z : Z) (p : mi * F * (mi * F)) : F :=
  let '((a, c0), (b, c1)) := p in fmul (fmul c0 c1) (pv (fun m => mi_entry a [m]) (fun m => mi_entry b [m]) z).
Lemma cr_pairs_ok ps :
  (forall a c0 b c1, In ((a, c0), (b, c1)) ps -> mi_shape a = [n] /\ mi_shape b = [n] /\ forall m, m < n -> dget key_eqb table (kk m (mi_entry a [m]) (mi_entry b [m])) <> None) ->
  forall memo acc h, memo_ok memo -> Show acc h ->
  exists r, cr_pairs compute mul scale add table [n] ps memo (Some acc) = Ok (Some r) /\ Show r (fun z => fadd (h z) (fsum (map (pair_value z) ps))).
Proof.
  induction ps as [|[[a c0] [b c1]] ps IH]; intros H memo acc h M A; cbn [cr_pairs].
  - exists acc. split; [reflexivity|]. revert A. apply H_ext. intros z. cbn. ring.
  - destruct (H a c0 b c1 (or_introl eq_refl)) as [Ea [Eb C]]. rewrite indices_one.
    destruct (cr_factors_ok a b Ea Eb C n 0 memo (Nat.add_0_l n) M) as [vs [memo' [-> [Lv [Vv M']]]]]. cbn [bind].
    destruct (H_mul vs (fun m => mi_entry a [m]) (fun m => mi_entry b [m]) Lv Vv) as [p [-> Hp]]. cbn [bind].
    destruct (H_add _ _ _ _ A (H_scale (fmul c0 c1) _ _ Hp)) as [r [-> Hr]]. cbn [bind].
    destruct (IH (fun a' c0' b' c1' Hi => H a' c0' b' c1' (or_intror Hi)) memo' r _ M' Hr) as [r' [E' Hr']]. exists r'. split; [exact E'|].
    revert Hr'. apply H_ext. intros z. cbn [map pair_value]. change (fsum (?u :: ?l)) with (fadd u (fsum l)). ring.
Qed.
Lemma cr_pairs_none ps :
  (forall a c0 b c1, In ((a, c0), (b, c1)) ps -> mi_shape a = [n] /\ mi_shape b = [n] /\ forall m, m < n -> dget key_eqb table (kk m (mi_entry a [m]) (mi_entry b [m])) <> None) ->
  ps <> [] -> exists r, cr_pairs compute mul scale add table [n] ps [] None = Ok (Some r) /\ Show r (fun z => fsum (map (pair_value z) ps)).
Proof.
  intros H N. destruct ps as [|[[a c0] [b c1]] ps]; [contradiction|]. cbn [cr_pairs].
  destruct (H a c0 b c1 (or_introl eq_refl)) as [Ea [Eb C]]. rewrite indices_one.
  destruct (cr_factors_ok a b Ea Eb C n 0 [] (Nat.add_0_l n)) as [vs [memo' [-> [Lv [Vv M']]]]]; [intros m p q v _ E; discriminate|]. cbn [bind].
  destruct (H_mul vs (fun m => mi_entry a [m]) (fun m => mi_entry b [m]) Lv Vv) as [p [-> Hp]]. cbn [bind].
  destruct (cr_pairs_ok ps (fun a' c0' b' c1' Hi => H a' c0' b' c1' (or_intror Hi)) memo' _ _ M' (H_scale (fmul c0 c1) _ _ Hp)) as [r [E Hr]].
  exists r. split; [exact E|]. exact Hr.
Qed.
End Compute.
Lemma fsum_app' (a b : list F) : fsum (a ++ b) = fadd (fsum a) (fsum b).
Proof. induction a as [|x a IH]; cbn [app]; [cbn; ring|]. change (fsum (?u :: ?l)) with (fadd u (fsum l)). rewrite IH. ring. Qed.
Lemma fsum_prod {A B} (f : A * B -> F) l l' : fsum (map f (list_prod l l')) = fsum (map (fun a => fsum (map (fun b => f (a, b)) l')) l).
Proof.
  induction l as [|a l IH]; [reflexivity|]. cbn [list_prod map]. rewrite map_app, fsum_app', IH, map_map. reflexivity.
Qed.
Lemma diff_value_pairs {A} n C0 C1 (G : nat -> nat -> nat -> A -> A -> F) x y :
  fsum (map (fun '((a, c0), (b, c1)) => fmul (fmul c0 c1) (tensor n (fun m => G m (mi_entry a [m]) (mi_entry b [m])) x y)) (list_prod C0 C1)) = diff_value n C0 C1 G x y.
Proof.
  rewrite fsum_prod. unfold diff_value. f_equal. apply map_ext. intros [a c0]. f_equal.
Qed.

(** ** Views *)
Section Views.
Variables (pdf : nat -> mi -> kfun F -> result (kfun F)) (ks : list (kfun F)) (L0 L1 : tdop F) (C0 C1 : list (mi * F)) (d : dtensor F).
Let n := length ks.
Hypothesis (T0 : terms L0 n C0) (T1 : terms L1 n C1).

Lemma pairs_nonempty : list_prod C0 C1 <> [].
Proof. destruct T0 as [N0 _], T1 as [N1 _]. intros E. apply (f_equal (@length _)) in E. rewrite prod_length in E. destruct C0; [contradiction|]. destruct C1; [contradiction|]. discriminate. Qed.
Section Array.
Variables (o0 o1 : shape) (G : nat -> nat -> nat -> index -> index -> F -> F -> F).
Hypothesis D : factors_differentiable pdf ks C0 C1 o0 o1 G.
Hypothesis I : dt_init pdf ks L0 L1 = Ok d.
Lemma init_facts : dt_k d = ks /\ dt_L0 d = L0 /\ dt_L1 d = L1 /\ dt_out0 d = o0 /\ dt_out1 d = o1 /\ table_ok o0 o1 G (dt_table d) /\
  forall a c0 b c1, In ((a, c0), (b, c1)) (list_prod C0 C1) -> mi_shape a = [n] /\ mi_shape b = [n] /\
    forall m, m < n -> dget key_eqb (dt_table d) (kk m (mi_entry a [m]) (mi_entry b [m])) <> None.
Proof.
  destruct (dt_init_ok pdf ks o0 o1 G L0 L1 C0 C1 T0 T1 D) as [d' [E [H1 [H2 [H3 [H4 [H5 [H6 [H7 _]]]]]]]]]. rewrite I in E. injection E as <-.
  repeat (split; [assumption|]). intros a c0 b c1 Hi. pose proof Hi as Hj. apply in_prod_iff in Hj as [Ha Hb]. split; [apply (proj1 (proj2 T0) a c0 Ha)|]. split; [apply (proj1 (proj2 T1) b c1 Hb)|].
  intros m Hm. apply (H7 a c0 b c1 m Hi Hm).
Qed.
Lemma compute_res_unfold {V} (compute : kfun F -> index -> result V) mul scale add :
  compute_res compute mul scale add d = cr_pairs compute mul scale add (dt_table d) [n] (list_prod C0 C1) [] None.
Proof. unfold compute_res. destruct init_facts as [-> [-> [-> _]]]. rewrite (terms_ok _ _ _ T0), (terms_ok _ _ _ T1). reflexivity. Qed.
Lemma dt_evaluate_ok (call : kfun F -> nd F -> option (nd F) -> result (nd F)) x0 x1 b0 b1 b :
  (forall k g, has_values k o0 o1 g -> forall x0 x1 b, broadcast_shapes (nshape x0) (nshape (second x0 x1)) = Ok b ->
    exists a, call k x0 x1 = Ok a /\ cov_array a b o0 o1 (fun i o q =>
      g o q (nat_ x0 (operand_index (nshape x0) i)) (nat_ (second x0 x1) (operand_index (nshape (second x0 x1)) i)))) ->
  points [n] x0 x1 b0 b1 -> broadcast_shapes b0 b1 = Ok b ->
  exists a, dt_evaluate call d x0 x1 = Ok a /\ cov_array a b o0 o1 (fun i o q =>
    diff_value n C0 C1 (fun m p r => G m p r o q) (coordinate x0 (operand_index b0 i)) (coordinate (second x0 x1) (operand_index b1 i))).
Proof.
  intros HC HP B. unfold dt_evaluate. rewrite compute_res_unfold. destruct init_facts as [-> [_ [_ [-> [-> [T C]]]]]].
  unfold tp_in. fold n. rewrite (check_ok _ _ _ _ _ _ HP B). cbn [bind]. destruct HP as [E0 E1].
  destruct (cr_pairs_none (fun k i => bind (take_last x0 (nth 0 i 0)) (fun y0 => bind (take_last_opt x1 (nth 0 i 0)) (fun y1 => call k y0 y1)))
    nd_mul (fun s => nd_map (fmul s)) nd_add
    (fun m p r v => cov_array v b o0 o1 (fun i o q => G m p r o q (coordinate x0 (operand_index b0 i) m) (coordinate (second x0 x1) (operand_index b1 i) m)))
    (fun v h => cov_array v b o0 o1 (fun i o q => h (i, o, q)))
    (fun p r '(i, o, q) => tensor n (fun m => G m (p m) (r m) o q) (coordinate x0 (operand_index b0 i)) (coordinate (second x0 x1) (operand_index b1 i)))
    (dt_table d) n) with (ps := list_prod C0 C1) as [a [-> Ha]].
  - intros m p r k Hm Ek. pose proof (T m p r k Ek) as HV. cbn [nth].
    destruct (take_last_ok x0 b0 n m E0 Hm) as [y0 [-> [S0 V0]]]. cbn [bind].
    assert (Y : exists y1, take_last_opt x1 m = Ok y1 /\ nshape (second y0 y1) = b1 /\ forall i, nat_ (second y0 y1) i = coordinate (second x0 x1) i m).
    { destruct x1 as [x1|]; cbn [take_last_opt second] in *.
      - destruct (take_last_ok x1 b1 n m E1 Hm) as [y1 [-> [S1 V1]]]. cbn [bind]. exists (Some y1). auto.
      - exists None. split; [reflexivity|]. cbn [second]. split; [|exact V0]. rewrite S0. apply (app_inv_tail [n]). congruence. }
    destruct Y as [y1 [-> [S1 V1]]]. cbn [bind]. destruct (HC k _ HV y0 y1 b) as [a [-> Ha]]; [now rewrite S0, S1|]. exists a. split; [reflexivity|].
    rewrite S0, S1 in Ha. revert Ha. intros Ha. apply (cov_array_ext _ _ _ _ _ _ Ha). intros i o q _ _ _. now rewrite V0, V1.
  - intros vs p r Lv Hv. destruct (reduce_mul LF b o0 o1 vs (map (fun m i o q => G m (p m) (r m) o q (coordinate x0 (operand_index b0 i) m) (coordinate (second x0 x1) (operand_index b1 i) m)) (seq 0 (length vs)))) as [a [-> Ha]].
    + apply Forall2_seq. exact Hv.
    + intros ->. destruct D as [N _]. apply N, length_zero_iff_nil. symmetry. exact Lv.
    + exists a. split; [reflexivity|]. rewrite Lv in Ha. apply (cov_array_ext _ _ _ _ _ _ Ha). intros i o q _ _ _. rewrite map_map. reflexivity.
  - intros c v h [S V]. split; [exact S|]. intros i o q Hi Ho Hq. cbn [nd_map nat_]. now rewrite V.
  - intros v w h h' [S V] [S' V']. unfold nd_add. rewrite S, S', shape_eqb_refl. eexists. split; [reflexivity|]. split; [exact S|].
    intros i o q Hi Ho Hq. cbn [nd_map2 nat_]. now rewrite V, V'.
  - intros v h h' E H. apply (cov_array_ext _ _ _ _ _ _ H). intros i o q _ _ _. apply E.
  - exact C.
  - exact pairs_nonempty.
  - cbn [bind cr_value]. exists a. split; [destruct Ha as [-> _]; now rewrite shape_eqb_refl|].
    apply (cov_array_ext _ _ _ _ _ _ Ha). intros i o q _ _ _. rewrite <- diff_value_pairs. reflexivity.
Qed.
End Array.

Section Grid.
Variable G : nat -> nat -> nat -> index -> index -> F -> F -> F.
Hypothesis D : factors_differentiable pdf ks C0 C1 [] [] G.
Hypothesis I : dt_init pdf ks L0 L1 = Ok d.
(** Only the factors of the first grid matter. *)
Lemma dt_linop_grid fs x0 x1 : length fs = n -> match x1 with Some y => is_grid y = true | None => True end ->
  exists M, dt_linop d (PGrid x0 (Some fs)) x1 = Ok M /\
    matrix_shows M (sizes fs) (sizes fs) (fun i j =>
      diff_value n C0 C1 (fun m p r => G m p r [] []) (fun m => flat (nth m fs dnd) (nth m i 0)) (fun m => flat (nth m fs dnd) (nth m j 0))).
Proof.
  intros Lf Hx. unfold dt_linop.
  replace (is_grid (PGrid x0 (Some fs)) && match x1 with Some y => is_grid y | None => true end) with true by (destruct x1; cbn [is_grid andb]; congruence).
  set (x1f := match x1 with Some _ => map Some fs | None => map (fun _ => None) fs end : list (option (nd F))).
  replace (match x1 with Some _ => _ | None => _ end) with (@Ok (list (option (nd F))) x1f) by (unfold x1f; destruct x1; reflexivity).
  cbn [bind parg_factors]. rewrite (compute_res_unfold [] [] G D I). destruct (init_facts [] [] G D I) as [_ [_ [_ [_ [_ [T C]]]]]].
  assert (XF : forall m, m < n -> exists y1, nth_error x1f m = Some y1 /\ second (nth m fs dnd) y1 = nth m fs dnd).
  { intros m Hm. unfold x1f. destruct x1; rewrite nth_error_map, (nth_error_nth' fs dnd) by lia; cbn [option_map]; eexists; split; reflexivity. }
  destruct (cr_pairs_none (fun k i => match nth_error fs (nth 0 i 0), nth_error x1f (nth 0 i 0) with Some f0, Some f1 => k_linop k f0 f1 | _, _ => Err IndexError end)
    (fun a b => Ok (kron a b)) mat_scale mat_add_checked
    (fun m p r v => matrix_shows v [size (nshape (nth m fs dnd))] [size (nshape (nth m fs dnd))]
       (fun i j => G m p r [] [] (flat (nth m fs dnd) (nth 0 i 0)) (flat (nth m fs dnd) (nth 0 j 0))))
    (fun v h => matrix_shows v (sizes fs) (sizes fs) (fun i j => h (i, j)))
    (fun p r '(i, j) => tensor n (fun m => G m (p m) (r m) [] []) (fun m => flat (nth m fs dnd) (nth m i 0)) (fun m => flat (nth m fs dnd) (nth m j 0)))
    (dt_table d) n) with (ps := list_prod C0 C1) as [a [-> Ha]].
  - intros m p r k Hm Ek. pose proof (T m p r k Ek) as HV. cbn [nth]. rewrite (nth_error_nth' fs dnd) by lia. destruct (XF m Hm) as [y1 [-> E1]].
    destruct (hv_linop _ _ _ _ HV (nth m fs dnd) y1) as [M [-> HM]]. exists M. split; [reflexivity|]. apply flat_shows in HM. rewrite E1 in HM. exact HM.
  - intros vs p r Lv Hv.
    destruct (reduce_kron_ok LF vs (map (fun m => (size (nshape (nth m fs dnd)), size (nshape (nth m fs dnd)), fun a b => G m (p m) (r m) [] [] (flat (nth m fs dnd) a) (flat (nth m fs dnd) b))) (seq 0 (length vs)))) as [M [EM HM]].
    + apply (Forall2_seq (fun (m : mat F) (f : nat * nat * (nat -> nat -> F)) => matrix_shows m [fst (fst f)] [snd (fst f)] (fun i j => snd f (nth 0 i 0) (nth 0 j 0)))). exact Hv.
    + intros ->. destruct D as [N _]. apply N, length_zero_iff_nil. symmetry. exact Lv.
    + exists M. split; [exact EM|]. rewrite !map_map in HM. cbn [fst snd] in HM. rewrite Lv in HM.
      assert (ES : map (fun m => size (nshape (nth m fs dnd))) (seq 0 n) = sizes fs).
      { unfold sizes. rewrite <- Lf. apply (nth_ext _ _ 0 0); [now rewrite !map_length, seq_length|].
        intros q Hq. rewrite map_length, seq_length in Hq. rewrite (nth_indep _ _ ((fun m => size (nshape (nth m fs dnd))) 0)) by now rewrite map_length, seq_length.
        etransitivity; [exact (map_nth (fun m => size (nshape (nth m fs dnd))) (seq 0 (length fs)) 0 q)|]. rewrite seq_nth by exact Hq. cbn [Nat.add].
        rewrite (nth_indep _ 0 ((fun f : nd F => size (nshape f)) dnd)) by now rewrite map_length. now rewrite (map_nth (fun f : nd F => size (nshape f))). }
      rewrite ES in HM. apply (matrix_shows_ext _ _ _ _ _ HM). intros i j Hi Hj. apply valid_index_length in Hi, Hj. unfold sizes in Hi, Hj. rewrite map_length in Hi, Hj.
      rewrite (pk_tensor _ _ _ (fun a b => G 0 (p 0) (r 0) [] [] (flat (nth 0 fs dnd) a) (flat (nth 0 fs dnd) b))) by (rewrite map_length, seq_length; congruence).
      rewrite map_length, seq_length. apply tensor_ext. intros m Hm.
      match goal with |- nth m (map ?f (seq 0 n)) _ _ _ = _ => pose proof (map_nth f (seq 0 n) 0 m) as EE end.
      apply (f_equal (fun h => h (nth m i 0) (nth m j 0))) in EE. etransitivity; [exact EE|]. cbv beta.
      rewrite seq_nth by exact Hm. reflexivity.
  - intros c v h [R [Cc V]]. split; [exact R|]. split; [exact Cc|]. intros i j Hi Hj. cbn [mat_scale entry]. now rewrite V.
  - intros v w h h' [R [Cc V]] [R' [C' V']]. unfold mat_add_checked. rewrite R, R', Cc, C', !Nat.eqb_refl. eexists. split; [reflexivity|].
    split; [exact R|]. split; [exact Cc|]. intros i j Hi Hj. cbn [mat_add entry]. now rewrite V, V'.
  - intros v h h' E H. apply (matrix_shows_ext _ _ _ _ _ H). intros i j _ _. apply E.
  - exact C.
  - exact (pairs_nonempty).
  - cbn [bind cr_value]. exists a. split; [reflexivity|].
    apply (matrix_shows_ext _ _ _ _ _ Ha). intros i j _ _. rewrite <- diff_value_pairs. reflexivity.
Qed.
End Grid.
End Views.
End P.
