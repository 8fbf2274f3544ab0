(** C41: coefficients of differential operators; C42: factorisation of partial
    derivatives. *)
From Coq Require Import List Arith ZArith Bool Lia Reals Lra Field_theory.
From Verif Require Import Base NdArray DiffopModel DiffopSpec DiffopProofs DiffopFactor.
Import ListNotations.

Section Props.
Variable F : fops.
Hypothesis L : flaws F.
Add Field Ffield3 : (fl_field F L).

(** The constructor accepts exactly the dictionaries whose output indices have the
    right length and do not exceed the shape, and whose multi-indices have the
    shape of the domain. *)
Theorem C41_validation : forall (d : outer F) dom cod,
  (mk_coeffs d dom cod = Ok (Coeffs d dom cod) <->
    forall i inn, In (i, inn) d -> length i = length cod /\ Forall2 (fun x y => (x < Z.of_nat y)%Z) i cod /\
      forall a x, In (a, x) inn -> mi_shape a = dom) /\
  (mk_coeffs d dom cod = Ok (Coeffs d dom cod) \/ mk_coeffs d dom cod = Err ValueError).
Proof.
  intros d dom cod. split; [symmetry; apply mk_coeffs_ok|]. unfold mk_coeffs.
  match goal with |- context [if ?b then _ else _] => destruct b end; auto.
Qed.
Theorem C41_add : forall c1 c2 : coeffs F, wf_coeffs c1 -> wf_coeffs c2 -> c_dom c1 = c_dom c2 -> c_cod c1 = c_cod c2 ->
  exists c, c_add c1 c2 = Ok c /\ wf_coeffs c /\ c_dom c = c_dom c1 /\ c_cod c = c_cod c1 /\
    forall i a, coeff_at c i a = fadd (coeff_at c1 i a) (coeff_at c2 i a).
Proof. exact (c_add_ok F L). Qed.
Theorem C41_add_shapes : forall c1 c2 : coeffs F, c_dom c1 <> c_dom c2 \/ c_cod c1 <> c_cod c2 -> c_add c1 c2 = Err ValueError.
Proof. exact (c_add_err F). Qed.
Theorem C41_scale : forall s (c : coeffs F), wf_coeffs c ->
  exists c', c_scale s c = Ok c' /\ wf_coeffs c' /\ c_dom c' = c_dom c /\ c_cod c' = c_cod c /\
    forall i a, coeff_at c' i a = fmul (coeff_at c i a) s.
Proof. exact (c_scale_ok F L). Qed.
Theorem C41_neg : forall c : coeffs F, wf_coeffs c ->
  exists c', c_neg c = Ok c' /\ wf_coeffs c' /\ c_dom c' = c_dom c /\ c_cod c' = c_cod c /\
    forall i a, coeff_at c' i a = fopp (coeff_at c i a).
Proof. exact (c_neg_ok F L). Qed.
Theorem C41_sub : forall c1 c2 : coeffs F, wf_coeffs c1 -> wf_coeffs c2 -> c_dom c1 = c_dom c2 -> c_cod c1 = c_cod c2 ->
  exists c, c_sub c1 c2 = Ok c /\ wf_coeffs c /\ c_dom c = c_dom c1 /\ c_cod c = c_cod c1 /\
    forall i a, coeff_at c i a = fsub (coeff_at c1 i a) (coeff_at c2 i a).
Proof. exact (c_sub_ok F L). Qed.
(** Lookup, number of entries, mixed derivatives. *)
Lemma get_lemma (c : coeffs F) i : wf_coeffs c ->
  match c_get c i with
  | Ok inn => In (i, inn) (c_dict c) /\ forall a x, In (a, x) inn -> coeff_at c i a = x
  | Err e => e = KeyError /\ ~ In i (map fst (c_dict c)) /\ forall a, coeff_at c i a = f0
  end.
Proof.
  intros W. unfold c_get. destruct (dget ci_eqb (c_dict c) i) as [inn|] eqn:E.
  - pose proof (dget_in _ _ ci_eqb ci_eqb_spec _ _ _ E) as H. split; [exact H|]. intros a x Hx.
    rewrite (coeff_atE F L). destruct W as [N W]. destruct (W _ _ H) as (_ & _ & N' & _).
    assert (G : forall {K V} (dec : forall p q : K, {p = q} + {p <> q}) (d : list (K * V)) (k : K) (v : V) (g : V -> F),
      NoDup (map fst d) -> In (k, v) d -> esum F (fun k' v' => if dec k' k then g v' else f0) d = g v).
    { clear - L. intros K V dec d k v g. induction d as [|[k' v'] d IH]; intros N I; [destruct I|]; destruct I as [E|H]; inversion N; subst.
      - injection E as -> ->. rewrite esum_cons'. rewrite (esum_zero F L).
        + destruct (dec k k); [ring|congruence].
        + intros k2 v2 H2'. destruct (dec k2 k) as [->|]; [|reflexivity]. exfalso. apply H1. now apply (in_map fst) in H2'.
      - rewrite esum_cons', IH by assumption. destruct (dec k' k) as [->|]; [|ring].
        exfalso. apply H2. now apply (in_map fst) in H. }
    rewrite (G _ _ (list_eq_dec Z.eq_dec) _ i inn (fun inn => inner_at F inn a) N H).
    unfold inner_at. apply (G _ _ mi_dec inn a x (fun x => x) N' Hx).
  - apply (dget_none _ _ ci_eqb ci_eqb_spec) in E. split; [reflexivity|]. split; [exact E|]. intros a.
    rewrite (coeff_atE F L). apply (esum_zero F L). intros k v H. destruct (list_eq_dec Z.eq_dec k i) as [->|]; [|reflexivity].
    exfalso. apply E. now apply (in_map fst) in H.
Qed.
Theorem C41_lookup : forall (c : coeffs F) i, wf_coeffs c ->
  match c_get c i with
  | Ok inn => In (i, inn) (c_dict c) /\ forall a x, In (a, x) inn -> coeff_at c i a = x
  | Err e => e = KeyError /\ ~ In i (map fst (c_dict c)) /\ forall a, coeff_at c i a = f0
  end.
Proof. exact get_lemma. Qed.
Theorem C41_num_entries : forall c : coeffs F,
  num_entries c = length (flat_map (fun '(i, inn) => map (fun '(a, x) => (i, a)) inn) (c_dict c)).
Proof.
  intros c. unfold num_entries. induction (c_dict c) as [|[i inn] d IH]; [reflexivity|]. cbn.
  rewrite app_length, map_length. unfold list_sum in *. now rewrite IH.
Qed.
Theorem C41_has_mixed : forall c : coeffs F,
  has_mixed c = true <-> exists i inn a x, In (i, inn) (c_dict c) /\ In (a, x) inn /\ mi_mixed a = true.
Proof.
  intros c. unfold has_mixed. rewrite existsb_exists. split.
  - intros ([i inn] & H & E). apply existsb_exists in E as ([a x] & H' & E). eauto 10.
  - intros (i & inn & a & x & H & H' & E). exists (i, inn). split; [exact H|]. apply existsb_exists. exists (a, x). auto.
Qed.

(** Coefficients of the named operators: nonzero at most on [n e_i]. *)
Definition axis_operator (c : coeffs F) (sh : shape) (n : nat) (w : index -> F) : Prop :=
  wf_coeffs c /\ c_dom c = sh /\ c_cod c = [] /\
  (forall i a, valid_index sh i -> mi_is a sh (axis i n) -> coeff_at c [] a = w i) /\
  (forall a, (forall i, valid_index sh i -> ~ mi_is a sh (axis i n)) -> coeff_at c [] a = f0) /\
  (forall idx a, idx <> [] -> coeff_at c idx a = f0).
Theorem C41_weighted_laplacian : forall sh (w : index -> F), exists c, weighted_laplacian sh w = Ok c /\ axis_operator c sh 2 w.
Proof. intros sh w. apply (axis_ok F L). discriminate. Qed.
Theorem C41_laplacian : forall sh, exists c, laplacian F sh = Ok c /\ axis_operator c sh 2 (fun _ => f1).
Proof. intros sh. apply C41_weighted_laplacian. Qed.
Theorem C41_directional_derivative : forall sh (d : index -> F), exists c, directional_derivative sh d = Ok c /\ axis_operator c sh 1 d.
Proof. intros sh w. apply (axis_ok F L). discriminate. Qed.
Lemma spatial sh : (exists n, sh = [n] /\ 2 <= n) ->
  exists c, spatial_laplacian F sh = Ok c /\ axis_operator c sh 2 (fun i => match i with [0] => f0 | _ => f1 end).
Proof.
  intros (n & -> & Hn). unfold spatial_laplacian. destruct (Nat.ltb_spec n 2); [lia|].
  destruct (C41_laplacian [n - 1]) as (c' & -> & _). cbn [bind].
  destruct (C41_weighted_laplacian [n] (fun i => if shape_eqb i [0] then f0 else f1)) as (c & E & W & A & B & C & D).
  exists c. split; [exact E|]. do 3 (split; [assumption|]). split; [|exact D].
  intros i a V M. rewrite (C i a V M). destruct (shape_eqb_spec i [0]) as [->|N]; [reflexivity|].
  destruct i as [|[|k] [|l i]]; try reflexivity. congruence.
Qed.
Theorem C41_spatial_laplacian : forall sh, (exists n, sh = [n] /\ 2 <= n) ->
  exists c, spatial_laplacian F sh = Ok c /\ axis_operator c sh 2 (fun i => match i with [0] => f0 | _ => f1 end).
Proof. exact spatial. Qed.
Theorem C41_spatial_laplacian_error : forall sh, ~ (exists n, sh = [n] /\ 2 <= n) -> spatial_laplacian F sh = Err ValueError.
Proof.
  intros [|n [|m sh]] H; try reflexivity. unfold spatial_laplacian. destruct (Nat.ltb_spec n 2); [reflexivity|]. exfalso. apply H. eauto.
Qed.
Lemma partial_lemma (a : mi) : exists c, partial_derivative F a = Ok c /\ wf_coeffs c /\ c_dom c = mi_shape a /\ c_cod c = [] /\
  coeff_at c [] a = f1 /\ (forall i b, i <> [] \/ b <> a -> coeff_at c i b = f0).
Proof.
  assert (W : wf_outer F [([], [(a, f1)])] (mi_shape a) []).
  { intros i inn [[= <- <-]|[]]. repeat split; [constructor|]. intros b x [[= <- <-]|[]]. reflexivity. }
  eexists. split; [now apply mk_coeffs_ok|]. split; [|split; [|split; [|split]]]; try reflexivity.
  - apply wf_join; [|exact W|].
    + cbn. repeat constructor. intros [].
    + intros i inn [[= <- <-]|[]]. cbn. repeat constructor. intros [].
  - unfold coeff_at. cbn -[list_eq_dec mi_dec]. destruct (list_eq_dec Z.eq_dec [] []); [|congruence]. destruct (mi_dec a a); [|congruence]. ring.
  - intros i b H. unfold coeff_at. cbn -[list_eq_dec mi_dec]. destruct (list_eq_dec Z.eq_dec [] i) as [<-|]; [|reflexivity].
    destruct (mi_dec a b) as [<-|]; [destruct H; congruence|]. ring.
Qed.
Theorem C41_partial_derivative : forall a : mi, exists c, partial_derivative F a = Ok c /\ wf_coeffs c /\ c_dom c = mi_shape a /\ c_cod c = [] /\
  coeff_at c [] a = f1 /\ (forall i b, i <> [] \/ b <> a -> coeff_at c i b = f0).
Proof. exact partial_lemma. Qed.
Lemma time_lemma n : n <> 0 -> exists a c, time_derivative F [n] = Ok c /\ partial_derivative F a = Ok c /\ mi_is a [n] (axis [0] 1).
Proof.
  intros Hn. destruct n as [|n]; [congruence|]. cbn [time_derivative]. rewrite Nat.sub_succ, Nat.sub_0_r.
  destruct (mk_mi_ok [S n] (1%Z :: repeat 0%Z n)) as (a & E & M).
  - cbn. rewrite repeat_length. lia.
  - constructor; [lia|]. apply Forall_forall. intros z H. apply repeat_spec in H. lia.
  - rewrite E. cbn [bind]. destruct (partial_lemma a) as (c & Ec & _). exists a, c. split; [exact Ec|]. split; [exact Ec|].
    eapply mi_is_ext; [|exact M]. intros i V. inversion V as [|k d j s Hk V']; subst. inversion V'; subst. cbn [ravel size fold_right].
    rewrite Nat.mul_1_r, Nat.add_0_r. unfold axis. destruct k as [|k]; cbn [nth].
    + destruct (list_eq_dec Nat.eq_dec [0] [0]); [reflexivity|congruence].
    + destruct (list_eq_dec Nat.eq_dec [S k] [0]); [congruence|]. rewrite nth_repeat. reflexivity.
Qed.
Theorem C41_time_derivative : forall n, n <> 0 ->
  exists a c, time_derivative F [n] = Ok c /\ partial_derivative F a = Ok c /\ mi_is a [n] (axis [0] 1).
Proof. exact time_lemma. Qed.
Theorem C41_time_derivative_scalar : exists a c, time_derivative F [] = Ok c /\ partial_derivative F a = Ok c /\ mi_is a [] (axis [] 1).
Proof.
  destruct (partial_lemma (MI [] [1])) as (c & E & _). exists (MI [] [1]), c. split; [exact E|]. split; [exact E|].
  split; [reflexivity|]. split; [reflexivity|]. intros i V. apply valid_index_nil in V as ->. reflexivity.
Qed.
Theorem C41_time_derivative_error : forall sh, 2 <= length sh -> time_derivative F sh = Err ValueError.
Proof. intros [|n [|m sh]] H; cbn in *; try lia. reflexivity. Qed.
Theorem C41_derivative : forall n, exists a c, derivative F (Z.of_nat n) = Ok c /\ partial_derivative F a = Ok c /\ mi_is a [] (axis [] n).
Proof.
  intros n. unfold derivative. destruct (Z.ltb_spec (Z.of_nat n) 0); [lia|].
  destruct (mk_mi_ok [] [Z.of_nat n]) as (a & E & M); [reflexivity|repeat constructor; lia|].
  rewrite E. cbn [bind]. destruct (partial_lemma a) as (c & Ec & _). exists a, c. split; [exact Ec|]. split; [exact Ec|].
  eapply mi_is_ext; [|exact M]. intros i V. apply valid_index_nil in V as ->. cbn. apply Nat2Z.id.
Qed.
Theorem C41_derivative_error : forall z, (z < 0)%Z -> derivative F z = Err ValueError.
Proof. intros z H. unfold derivative. destruct (Z.ltb_spec z 0); [reflexivity|lia]. Qed.
(** Heat operator: time derivative minus alpha times the Laplacian of the other
    coordinates. *)
Lemma heat_lemma n alpha : n <> 0 -> exists t l, heat_operator [n] alpha = Ok (t, l) /\ time_derivative F [n] = Ok t /\
  axis_operator l [n] 2 (fun i => match i with [0] => f0 | _ => fopp alpha end).
Proof.
  intros Hn. unfold heat_operator. destruct (time_lemma n Hn) as (a & t & E & Ea & Ma). rewrite E. cbn [bind].
  destruct (C41_weighted_laplacian [n] (fun i => if shape_eqb i [0] then f0 else fopp alpha)) as (l & El & W & A & B & C & D).
  rewrite El. cbn [bind]. exists t, l. split; [|split; [reflexivity|]].
  - destruct (partial_lemma a) as (t' & Et & _ & Dt & _). rewrite Ea in Et. injection Et as <-.
    destruct Ma as (Sa & _). rewrite Dt, A, Sa, shape_eqb_refl. reflexivity.
  - do 3 (split; [assumption|]). split; [|exact D].
    intros i b V M. rewrite (C i b V M). destruct (shape_eqb_spec i [0]) as [->|N]; [reflexivity|].
    destruct i as [|[|k] [|m i]]; try reflexivity. congruence.
Qed.
Theorem C41_heat : forall n alpha, n <> 0 -> exists t l, heat_operator [n] alpha = Ok (t, l) /\ time_derivative F [n] = Ok t /\
  axis_operator l [n] 2 (fun i => match i with [0] => f0 | _ => fopp alpha end).
Proof. exact heat_lemma. Qed.
Theorem C41_heat_error : forall sh (alpha : F), length sh <> 1 -> heat_operator sh alpha = Err ValueError.
Proof. intros [|n [|m sh]] alpha H; cbn in *; try lia; reflexivity. Qed.

(** Multi-indices. *)
Theorem C41_multi_index : forall sh data, length data = size sh ->
  (Forall (fun z => (0 <= z)%Z) data ->
    exists a, mk_mi sh data = Ok a /\ mi_is a sh (fun i => Z.to_nat (nth (ravel sh i) data 0%Z))) /\
  (~ Forall (fun z => (0 <= z)%Z) data -> mk_mi sh data = Err ValueError).
Proof. intros sh data E. split; [now apply mk_mi_ok|apply mk_mi_err]. Qed.
Theorem C41_from_index : forall i sh n,
  (valid_index sh i -> exists a, from_index i sh n = Ok a /\ mi_is a sh (axis i n)) /\
  (~ valid_index sh i -> from_index i sh n = Err IndexError).
Proof. intros i sh n. split; [apply from_index_ok|apply from_index_err]. Qed.
Theorem C41_is_mixed : forall a, mi_wf a -> (mi_mixed a = true <->
  exists i j, i <> j /\ valid_index (mi_shape a) i /\ valid_index (mi_shape a) j /\ mi_entry a i <> 0 /\ mi_entry a j <> 0).
Proof. exact mixed_ok. Qed.
Lemma order_lemma a : mi_wf a -> mi_order a = list_sum (map (mi_entry a) (all_indices (mi_shape a))).
Proof.
  intros W. unfold mi_order. f_equal. apply nth_error_ext. intros p. rewrite nth_error_map.
  destruct (Nat.lt_ge_cases p (size (mi_shape a))) as [H|H].
  - destruct (ravel_surj _ _ H) as (i & V & <-). rewrite nth_all by exact V. cbn. destruct (wf_is a W) as (_ & _ & C). now rewrite C.
  - rewrite !(proj2 (nth_error_None _ _)); [reflexivity|rewrite length_all; lia|rewrite W; lia].
Qed.
Theorem C41_order : forall a, mi_wf a -> mi_order a = list_sum (map (mi_entry a) (all_indices (mi_shape a))).
Proof. exact order_lemma. Qed.
Theorem C41_equality : forall a b, mi_eqb a b = true <-> a = b.
Proof. intros a b. destruct (mi_eqb_spec a b); split; congruence. Qed.
End Props.

(** C42: as many first-order factors as the order, together the multi-index. *)
Theorem C42_first_order : forall a, mi_wf a -> mi_order a <> 0 ->
  exists fs, factorize_first_order a = Ok fs /\ length fs = mi_order a /\
    (forall b, In b fs -> exists i, valid_index (mi_shape a) i /\ mi_is b (mi_shape a) (axis i 1)) /\
    forall i, valid_index (mi_shape a) i -> list_sum (map (fun b => mi_entry b i) fs) = mi_entry a i.
Proof. exact ffo_ok. Qed.
(** One factor per axis with a non-zero entry. *)
Theorem C42_dimwise : forall a, mi_wf a -> mi_order a <> 0 ->
  exists fs, factorize_dimwise a = Ok fs /\ NoDup fs /\
    (forall b, In b fs <-> exists i, valid_index (mi_shape a) i /\ mi_entry a i <> 0 /\ mi_is b (mi_shape a) (axis i (mi_entry a i))) /\
    forall i, valid_index (mi_shape a) i -> list_sum (map (fun b => mi_entry b i) fs) = mi_entry a i.
Proof. exact fdw_ok. Qed.
Theorem C42_order_zero : forall a, mi_wf a -> mi_order a = 0 ->
  factorize_first_order a = Err IndexError /\ factorize_dimwise a = Err IndexError.
Proof. exact factor_zero. Qed.
Theorem C42_factor_at_dim : forall a i, mi_wf a ->
  (valid_index (mi_shape a) i -> exists b, get_factor_at_dim a i = Ok b /\ mi_is b [] (fun _ => mi_entry a i)) /\
  (~ valid_index (mi_shape a) i -> get_factor_at_dim a i = Err IndexError).
Proof. intros a i W. split; [now apply get_factor_ok|apply get_factor_err]. Qed.

Print Assumptions C41_validation. Print Assumptions C41_add. Print Assumptions C41_add_shapes. Print Assumptions C41_scale.
Print Assumptions C41_neg. Print Assumptions C41_sub. Print Assumptions C41_lookup. Print Assumptions C41_num_entries.
Print Assumptions C41_has_mixed. Print Assumptions C41_weighted_laplacian. Print Assumptions C41_laplacian.
Print Assumptions C41_directional_derivative. Print Assumptions C41_spatial_laplacian. Print Assumptions C41_spatial_laplacian_error.
Print Assumptions C41_partial_derivative. Print Assumptions C41_time_derivative. Print Assumptions C41_time_derivative_scalar.
Print Assumptions C41_time_derivative_error. Print Assumptions C41_derivative. Print Assumptions C41_derivative_error.
Print Assumptions C41_heat. Print Assumptions C41_heat_error. Print Assumptions C41_multi_index. Print Assumptions C41_from_index.
Print Assumptions C41_is_mixed. Print Assumptions C41_order. Print Assumptions C41_equality.
Print Assumptions C42_first_order. Print Assumptions C42_dimwise. Print Assumptions C42_order_zero. Print Assumptions C42_factor_at_dim.

(** The sum of a two-dimensional Laplacian and a directional derivative. *)
Example C41_example : exists l d c, laplacian QcF [2] = Ok l /\
  directional_derivative (F := QcF) [2] (fun i => match i with [0] => f1 | _ => f0 end) = Ok d /\ c_add l d = Ok c /\
  num_entries c = 3 /\ c_dict c = [([], [(MI [2] [2; 0], f1); (MI [2] [0; 2], f1); (MI [2] [1; 0], f1)])].
Proof. do 3 eexists. repeat (split; [reflexivity|]). reflexivity. Qed.
Example C42_example : let a := MI [3] [1; 0; 2] in
  factorize_first_order a = Ok [MI [3] [1; 0; 0]; MI [3] [0; 0; 1]; MI [3] [0; 0; 1]] /\
  factorize_dimwise a = Ok [MI [3] [1; 0; 0]; MI [3] [0; 0; 2]] /\ get_factor_at_dim a [2] = Ok (MI [] [2]).
Proof. repeat split. Qed.
