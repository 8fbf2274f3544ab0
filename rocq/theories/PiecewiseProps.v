(** Property theorems C05 and C06. *)
From Coq Require Import List Reals Lra Lia Bool Arith.
From Coquelicot Require Import Coquelicot.
From Verif Require Import Base PolyModel PolySpec PolyProofs PolyClassModel PolyCalc
  PiecewiseModel PiecewiseSpec PiecewiseProofs PiecewiseIntegral.
Import ListNotations.
Open Scope R_scope.

(** C05: construction. *)
Theorem C05_constructor : forall k xs fns,
  (forall f, piecewise_init k xs fns = Ok f ->
     f = mkpw k xs fns /\ S (length (pw_fns f)) = length (pw_xs f)) /\
  ((exists e, piecewise_init k xs fns = Err e) <-> S (length fns) <> length xs) /\
  (forall e, piecewise_init k xs fns = Err e -> e = ValueError).
Proof. exact piecewise_init_spec. Qed.
Print Assumptions C05_constructor.

(** Every point of the knot range lies in exactly one cell. *)
Lemma cells_partition xs : increasing xs -> (2 <= length xs)%nat -> forall x,
  nth 0 xs 0 <= x <= nth (length xs - 1) xs 0 ->
  exists! i, (S i < length xs)%nat /\ in_cell xs i x.
Proof.
  intros Hinc Hl x Hx. destruct (in_cell_exists xs x Hl Hx) as [i [Hi Hc]].
  exists i. split; [split; assumption|]. intros j [Hj Hc']. apply (in_cell_unique xs i j x); assumption.
Qed.
Theorem C05_cells_partition : forall xs, increasing xs -> (2 <= length xs)%nat -> forall x,
  nth 0 xs 0 <= x <= nth (length xs - 1) xs 0 ->
  exists! i, (S i < length xs)%nat /\ in_cell xs i x.
Proof. exact cells_partition. Qed.
Print Assumptions C05_cells_partition.

(** The value is that of the piece of the cell containing the point. *)
Theorem C05_value_in_cell : forall f i x d, S (length (pw_fns f)) = length (pw_xs f) ->
  increasing (pw_xs f) -> pw_kind f <> KConstant ->
  (i < length (pw_fns f))%nat -> in_cell (pw_xs f) i x ->
  pw_eval f x = Ok (piece_eval (nth i (pw_fns f) d) x).
Proof. exact pw_eval_inside. Qed.
Print Assumptions C05_value_in_cell.

Theorem C05_value_outside : forall f x, S (length (pw_fns f)) = length (pw_xs f) ->
  increasing (pw_xs f) -> pw_fns f <> [] ->
  (x < nth 0 (pw_xs f) 0 \/ nth (length (pw_fns f)) (pw_xs f) 0 < x) ->
  pw_eval f x = Ok 0.
Proof. exact pw_eval_outside. Qed.
Print Assumptions C05_value_outside.

Theorem C05_no_pieces : forall f x, pw_fns f = [] -> pw_eval f x = Err IndexError.
Proof. exact pw_eval_empty. Qed.
Print Assumptions C05_no_pieces.

(** Piecewise constant functions, away from the leftmost knot. *)
Theorem C05_constant_value : forall xs ys i x f, piecewise_constant xs ys = Ok f -> increasing xs ->
  (i < length ys)%nat -> nth i xs 0 < x <= nth (S i) xs 0 -> pw_eval f x = Ok (nth i ys 0).
Proof. exact pw_const_inside. Qed.
Print Assumptions C05_constant_value.

(** At the leftmost knot the value is 0, whatever [ys[0]] is. *)
Theorem C05_constant_left : forall xs ys f, piecewise_constant xs ys = Ok f -> increasing xs -> ys <> [] ->
  pw_eval f (nth 0 xs 0) = Ok 0.
Proof. exact pw_const_left. Qed.
Print Assumptions C05_constant_left.

Lemma increasing_01 : increasing [0; 1].
Proof. intros i j Hij. cbn in Hij. destruct i, j as [|[|]]; try lia. cbn. lra. Qed.
Lemma increasing_013 : increasing [0; 1; 3].
Proof.
  intros i j Hij. cbn in Hij. destruct i as [|[|[|]]], j as [|[|[|]]]; try lia; cbn; lra.
Qed.

Lemma constant_left_refuted :
  exists xs ys f, increasing xs /\ piecewise_constant xs ys = Ok f /\
    in_cell xs 0 (nth 0 xs 0) /\ pw_eval f (nth 0 xs 0) <> Ok (nth 0 ys 0).
Proof.
  exists [0; 1], [5], (mkpw KConstant [0; 1] [PcConst 5]).
  split; [exact increasing_01|]. split; [reflexivity|]. split; [cbn; lra|].
  pose proof (pw_const_left [0; 1] [5] _ eq_refl increasing_01 ltac:(discriminate)) as H0.
  cbn [nth map] in *. intros H. rewrite H in H0. injection H0. lra.
Qed.
Theorem C05_constant_left_refuted :
  exists xs ys f, increasing xs /\ piecewise_constant xs ys = Ok f /\
    in_cell xs 0 (nth 0 xs 0) /\ pw_eval f (nth 0 xs 0) <> Ok (nth 0 ys 0).
Proof. exact constant_left_refuted. Qed.
Print Assumptions C05_constant_left_refuted.

(** Scaling: [Piecewise] and [PiecewiseLinear]. *)
Lemma scale_value c f x : List.Forall piece_ok (pw_fns f) ->
  pw_valid f -> increasing (pw_xs f) -> pw_fns f <> [] -> pw_kind f <> KConstant ->
  exists f' v, pw_scale c f = Ok f' /\ pw_kind f' = pw_kind f /\ pw_eval f x = Ok v /\ pw_eval f' x = Ok (c * v).
Proof.
  intros Hok Hv Hinc Hne Hk.
  destruct (pw_op_value (piece_scale c) (fun _ v => c * v)
     (match pw_kind f with KLinear => KLinear | _ => KPiecewise end) f x) as (f' & Hf' & Hkk & Hin & Hout); try assumption.
  - intros g Hg. apply piece_scale_eval. exact Hg.
  - destruct (pw_kind f); discriminate.
  - assert (Ek : pw_kind f' = pw_kind f) by (rewrite Hkk; destruct (pw_kind f); congruence).
    destruct (Rlt_dec x (nth 0 (pw_xs f) 0)) as [L|L]; [|destruct (Rlt_dec (nth (length (pw_fns f)) (pw_xs f) 0) x) as [L'|L']].
    + exists f', 0. destruct (Hout (or_introl L)) as [E1 E2]. rewrite Rmult_0_r. auto.
    + exists f', 0. destruct (Hout (or_intror L')) as [E1 E2]. rewrite Rmult_0_r. auto.
    + destruct (Hin ltac:(lra)) as (v & E1 & E2). exists f', v. auto.
Qed.
Theorem C05_scale : forall c f x, List.Forall piece_ok (pw_fns f) ->
  S (length (pw_fns f)) = length (pw_xs f) -> increasing (pw_xs f) -> pw_fns f <> [] -> pw_kind f <> KConstant ->
  exists f' v, pw_scale c f = Ok f' /\ pw_kind f' = pw_kind f /\ pw_eval f x = Ok v /\ pw_eval f' x = Ok (c * v).
Proof. exact scale_value. Qed.
Print Assumptions C05_scale.

(** Scaling a [PiecewiseConstant]: correct except at the leftmost knot. *)
Lemma scale_constant c xs ys f i x : piecewise_constant xs ys = Ok f -> increasing xs ->
  (i < length ys)%nat -> in_cell xs i x ->
  exists f', pw_scale c f = Ok f' /\ pw_kind f' = KPiecewise /\ pw_eval f' x = Ok (c * nth i ys 0).
Proof.
  intros Hf Hinc Hi Hc. apply piecewise_init_spec in Hf. destruct Hf as [-> Hv].
  unfold pw_valid in Hv. cbn in Hv. rewrite map_length in Hv.
  unfold pw_scale. cbn. rewrite map_map. cbn.
  exists (mkpw KPiecewise xs (map (fun y => PcConst (c * y)) ys)).
  split; [apply piecewise_init_ok; now rewrite map_length|]. split; [reflexivity|].
  rewrite (pw_eval_inside _ i x (PcConst (c * 0))); cbn; try assumption; try congruence.
  - rewrite (map_nth (fun y => PcConst (c * y))). reflexivity.
  - unfold pw_valid. cbn. now rewrite map_length.
  - now rewrite map_length.
Qed.
Theorem C05_scale_constant : forall c xs ys f i x, piecewise_constant xs ys = Ok f -> increasing xs ->
  (i < length ys)%nat -> in_cell xs i x ->
  exists f', pw_scale c f = Ok f' /\ pw_kind f' = KPiecewise /\ pw_eval f' x = Ok (c * nth i ys 0).
Proof. exact scale_constant. Qed.
Print Assumptions C05_scale_constant.

Lemma scale_constant_refuted : exists c f f' x v, pw_kind f = KConstant /\ pw_scale c f = Ok f' /\
  pw_eval f x = Ok v /\ pw_eval f' x <> Ok (c * v).
Proof.
  destruct (scale_constant 2 [0; 1] [5] _ 0 0 eq_refl increasing_01) as (f' & Hf' & _ & Hv); [cbn; lia|cbn; lra|].
  exists 2, (mkpw KConstant [0; 1] [PcConst 5]), f', 0, 0. split; [reflexivity|]. split; [exact Hf'|].
  split; [exact (pw_const_left [0; 1] [5] _ eq_refl increasing_01 ltac:(discriminate))|].
  rewrite Hv. cbn. intros [= H]. lra.
Qed.
Theorem C05_scale_constant_refuted : exists c f f' x v, pw_kind f = KConstant /\ pw_scale c f = Ok f' /\
  pw_eval f x = Ok v /\ pw_eval f' x <> Ok (c * v).
Proof. exact scale_constant_refuted. Qed.
Print Assumptions C05_scale_constant_refuted.

(** Adding a polynomial or constant: the sum inside the knot range. *)
Lemma add_poly_value f q x : List.Forall piece_ok (pw_fns f) -> py_valid q ->
  pw_valid f -> increasing (pw_xs f) -> pw_fns f <> [] -> pw_kind f = KLinear ->
  exists f', pwlinear_add_poly f q = Ok f' /\
    (pw_kind f' = KLinear <-> py_degree q = 1%nat) /\
    (nth 0 (pw_xs f) 0 <= x <= nth (length (pw_fns f)) (pw_xs f) 0 ->
      exists v, pw_eval f x = Ok v /\ pw_eval f' x = Ok (v + py_eval q x)) /\
    (x < nth 0 (pw_xs f) 0 \/ nth (length (pw_fns f)) (pw_xs f) 0 < x -> pw_eval f' x = Ok 0).
Proof.
  intros Hok Hq Hv Hinc Hne Hk.
  destruct (pw_op_value (fun g => piece_add_poly g q) (fun x v => v + py_eval q x)
     (if (py_degree q =? 1)%nat then KLinear else KPiecewise) f x) as (f' & Hf' & Hkk & Hin & Hout); try assumption.
  - intros g Hg. apply piece_add_poly_eval; assumption.
  - congruence.
  - destruct (py_degree q =? 1)%nat; discriminate.
  - exists f'. split; [exact Hf'|]. split; [|split; [exact Hin|intros H; apply Hout, H]].
    rewrite Hkk. destruct (Nat.eqb_spec (py_degree q) 1); split; intros; try reflexivity; try congruence.
Qed.
Theorem C05_add_polynomial : forall f q x, List.Forall piece_ok (pw_fns f) -> py_valid q ->
  S (length (pw_fns f)) = length (pw_xs f) -> increasing (pw_xs f) -> pw_fns f <> [] -> pw_kind f = KLinear ->
  exists f', pwlinear_add_poly f q = Ok f' /\
    (pw_kind f' = KLinear <-> py_degree q = 1%nat) /\
    (nth 0 (pw_xs f) 0 <= x <= nth (length (pw_fns f)) (pw_xs f) 0 ->
      exists v, pw_eval f x = Ok v /\ pw_eval f' x = Ok (v + py_eval q x)) /\
    (x < nth 0 (pw_xs f) 0 \/ nth (length (pw_fns f)) (pw_xs f) 0 < x -> pw_eval f' x = Ok 0).
Proof. exact add_poly_value. Qed.
Print Assumptions C05_add_polynomial.

Lemma add_const_value f c x : List.Forall piece_ok (pw_fns f) ->
  pw_valid f -> increasing (pw_xs f) -> pw_fns f <> [] -> pw_kind f = KLinear ->
  exists f', pwlinear_add_const f c = Ok f' /\ pw_kind f' = KLinear /\
    (nth 0 (pw_xs f) 0 <= x <= nth (length (pw_fns f)) (pw_xs f) 0 ->
      exists v, pw_eval f x = Ok v /\ pw_eval f' x = Ok (v + c)) /\
    (x < nth 0 (pw_xs f) 0 \/ nth (length (pw_fns f)) (pw_xs f) 0 < x -> pw_eval f' x = Ok 0).
Proof.
  intros Hok Hv Hinc Hne Hk.
  destruct (pw_op_value (fun g => piece_add_const g c) (fun x v => v + c)
     KLinear f x) as (f' & Hf' & Hkk & Hin & Hout); try assumption; try congruence.
  - intros g Hg. apply piece_add_const_eval; assumption.
  - exists f'. split; [exact Hf'|]. split; [exact Hkk|]. split; [exact Hin|intros H; apply Hout, H].
Qed.
Theorem C05_add_constant : forall f c x, List.Forall piece_ok (pw_fns f) ->
  S (length (pw_fns f)) = length (pw_xs f) -> increasing (pw_xs f) -> pw_fns f <> [] -> pw_kind f = KLinear ->
  exists f', pwlinear_add_const f c = Ok f' /\ pw_kind f' = KLinear /\
    (nth 0 (pw_xs f) 0 <= x <= nth (length (pw_fns f)) (pw_xs f) 0 ->
      exists v, pw_eval f x = Ok v /\ pw_eval f' x = Ok (v + c)) /\
    (x < nth 0 (pw_xs f) 0 \/ nth (length (pw_fns f)) (pw_xs f) 0 < x -> pw_eval f' x = Ok 0).
Proof. exact add_const_value. Qed.
Print Assumptions C05_add_constant.

(** Linear interpolation of points. *)
Theorem C05_from_points_errors : forall xs ys,
  (exists e, from_points xs ys = Err e) <-> xs = [] \/ (length ys < length xs /\ 2 <= length xs)%nat.
Proof. exact from_points_error. Qed.
Print Assumptions C05_from_points_errors.

Theorem C05_from_points_knots : forall xs ys f i, from_points xs ys = Ok f -> length xs = length ys ->
  increasing xs -> (2 <= length xs)%nat -> (i < length xs)%nat -> pw_eval f (nth i xs 0) = Ok (nth i ys 0).
Proof. exact from_points_knot. Qed.
Print Assumptions C05_from_points_knots.

Theorem C05_from_points_interpolates : forall xs ys f i x, from_points xs ys = Ok f -> length xs = length ys ->
  increasing xs -> (S i < length xs)%nat -> nth i xs 0 <= x <= nth (S i) xs 0 ->
  pw_eval f x = Ok (nth i ys 0 + (x - nth i xs 0) * ((nth (S i) ys 0 - nth i ys 0) / (nth (S i) xs 0 - nth i xs 0))).
Proof. exact from_points_cell. Qed.
Print Assumptions C05_from_points_interpolates.

Theorem C05_from_points_continuous : forall xs ys f x, from_points xs ys = Ok f -> length xs = length ys ->
  increasing xs -> nth 0 xs 0 < x < nth (length xs - 1) xs 0 ->
  continuous (fun x => match pw_eval f x with Ok v => v | Err _ => 0 end) x.
Proof. exact from_points_continuous. Qed.
Print Assumptions C05_from_points_continuous.

Example C05_example :
  exists f, from_points [0; 1; 3] [2; 4; 0] = Ok f /\ increasing [0; 1; 3] /\
    pw_eval f 1 = Ok 4 /\ pw_eval f 2 = Ok 2 /\ pw_eval f 4 = Ok 0.
Proof.
  assert (Hf := from_points_ok [0; 1; 3] [2; 4; 0] eq_refl ltac:(discriminate)).
  eexists. split; [exact Hf|]. split; [exact increasing_013|]. split; [|split].
  - apply (from_points_knot _ _ _ 1 Hf eq_refl increasing_013); cbn; lia.
  - rewrite (from_points_cell _ _ _ 1 _ Hf eq_refl increasing_013); [|cbn; lia|cbn; lra].
    f_equal. unfold interpolate. cbn. lra.
  - apply pw_eval_outside; try exact increasing_013; [reflexivity|discriminate|right; cbn; lra].
Qed.

(** C06: integral up to a knot. *)
Theorem C06_integral_upper_knot : forall f a j,
  S (length (pw_fns f)) = length (pw_xs f) -> increasing (pw_xs f) ->
  (pw_kind f = KConstant -> exists ys, pw_fns f = map PcConst ys) ->
  (forall i, (i < length (pw_fns f))%nat ->
    piece_integrable (nth i (pw_fns f) (PcConst 0)) (nth i (pw_xs f) 0) (nth (S i) (pw_xs f) 0)) ->
  (j < length (pw_xs f))%nat -> nth 0 (pw_xs f) 0 <= a <= nth j (pw_xs f) 0 ->
  exists v, pw_lebesgue a (nth j (pw_xs f) 0) f = Ok v /\
    is_RInt (fun x => match pw_eval f x with Ok v => v | Err _ => 0 end) a (nth j (pw_xs f) 0) v.
Proof. exact pw_lebesgue_knot. Qed.
Print Assumptions C06_integral_upper_knot.

Theorem C06_lower_bound_checked : forall f a b, increasing (pw_xs f) -> pw_xs f <> [] -> a <= b ->
  a < nth 0 (pw_xs f) 0 -> pw_lebesgue a b f = Err ValueError.
Proof. exact pw_lebesgue_left_error. Qed.
Print Assumptions C06_lower_bound_checked.

Theorem C06_empty_domain : forall f a b, b < a -> pw_lebesgue a b f = Err ValueError.
Proof. exact pw_lebesgue_empty. Qed.
Print Assumptions C06_empty_domain.

(** Both bounds in the interior of one cell: the result is always 0. *)
Theorem C06_inside_one_cell_zero : forall f a b i, S (length (pw_fns f)) = length (pw_xs f) ->
  increasing (pw_xs f) -> (S i < length (pw_xs f))%nat ->
  nth i (pw_xs f) 0 <= a -> a <= b -> b < nth (S i) (pw_xs f) 0 -> pw_lebesgue a b f = Ok 0.
Proof. exact pw_lebesgue_inside_cell. Qed.
Print Assumptions C06_inside_one_cell_zero.

(** The constant function 1 on [0, 2], integrated over [0, 1]. *)
Lemma increasing_02 : increasing [0; 2].
Proof. intros i j Hij. cbn in Hij. destruct i, j as [|[|]]; try lia. cbn. lra. Qed.
Lemma integral_refuted : exists f a b v, pw_valid f /\ increasing (pw_xs f) /\ pw_integrable f /\
  nth 0 (pw_xs f) 0 <= a /\ a <= b /\ b <= nth (length (pw_fns f)) (pw_xs f) 0 /\
  pw_lebesgue a b f = Ok v /\ ~ is_RInt (pw_value f) a b v.
Proof.
  set (f := mkpw KPiecewise [0; 2] [PcConst 1]).
  assert (Hv : pw_valid f) by reflexivity.
  exists f, 0, 1, 0. split; [exact Hv|]. split; [exact increasing_02|].
  split; [intros i Hi; cbn in Hi; destruct i; [exact I|lia]|].
  split; [cbn; lra|]. split; [lra|]. split; [cbn; lra|].
  split; [apply (pw_lebesgue_inside_cell f 0 1 0 Hv increasing_02); cbn; lia || lra|].
  intros H.
  assert (H' : is_RInt (pw_value f) 0 1 (scal (1 - 0) 1)).
  { apply (@is_RInt_ext R_NormedModule (fun _ => 1)); [|apply (@is_RInt_const R_NormedModule)].
    rewrite Rmin_left, Rmax_right by lra. intros x Hx. symmetry. unfold pw_value.
    rewrite (pw_eval_inside f 0 x (PcConst 0) Hv increasing_02); cbn; try lia; try discriminate; [reflexivity|lra]. }
  apply (@is_RInt_unique R_CompleteNormedModule) in H. apply (@is_RInt_unique R_CompleteNormedModule) in H'.
  rewrite H in H'. unfold scal in H'. cbn in H'. unfold mult in H'. cbn in H'. lra.
Qed.
Theorem C06_interior_upper_refuted : exists f a b v, S (length (pw_fns f)) = length (pw_xs f) /\
  increasing (pw_xs f) /\ pw_integrable f /\
  nth 0 (pw_xs f) 0 <= a /\ a <= b /\ b <= nth (length (pw_fns f)) (pw_xs f) 0 /\
  pw_lebesgue a b f = Ok v /\ ~ is_RInt (fun x => match pw_eval f x with Ok v => v | Err _ => 0 end) a b v.
Proof. exact integral_refuted. Qed.
Print Assumptions C06_interior_upper_refuted.

(** An upper bound beyond the last knot is accepted and the last piece is
    extrapolated. *)
Lemma upper_unchecked : exists f b, pw_valid f /\ increasing (pw_xs f) /\
  nth (length (pw_fns f)) (pw_xs f) 0 < b /\ pw_lebesgue 0 b f = Ok b.
Proof.
  exists (mkpw KPiecewise [0; 1] [PcConst 1]), 5. split; [reflexivity|]. split; [exact increasing_01|].
  split; [cbn; lra|]. unfold pw_lebesgue, searchsorted_right. cbn.
  unfold Rltb, Rleb.
  destruct (Rlt_dec 5 0); [lra|]. destruct (Rle_dec 0 5); [|lra]. destruct (Rle_dec 1 5); [|lra].
  destruct (Rle_dec 0 0); [|lra]. destruct (Rle_dec 1 0); [lra|]. cbn. unfold piece_integral, Rltb.
  destruct (Rlt_dec 5 0); [lra|]. cbn. f_equal. lra.
Qed.
Theorem C06_upper_bound_unchecked_refuted : exists f b, S (length (pw_fns f)) = length (pw_xs f) /\
  increasing (pw_xs f) /\ nth (length (pw_fns f)) (pw_xs f) 0 < b /\ pw_lebesgue 0 b f = Ok b.
Proof. exact upper_unchecked. Qed.
Print Assumptions C06_upper_bound_unchecked_refuted.

Example C06_example : exists f, from_points [0; 1; 3] [2; 4; 0] = Ok f /\ pw_integrable f /\
  pw_lebesgue (1/2) 3 f = Ok (7/4 + 4).
Proof.
  assert (Hf := from_points_ok [0; 1; 3] [2; 4; 0] eq_refl ltac:(discriminate)).
  set (f := mkpw KLinear [0; 1; 3] (linear_pieces [0; 1; 3] [2; 4; 0])) in *.
  exists f. split; [exact Hf|]. split.
  - intros i Hi. cbn in Hi. destruct i as [|[|]]; [| |lia]; cbn; discriminate.
  - destruct (pw_lebesgue_knot f (1/2) 2) as (v & Hv & HI).
    + reflexivity. + exact increasing_013. + discriminate.
    + intros i Hi. cbn in Hi. destruct i as [|[|]]; [| |lia]; cbn; discriminate.
    + cbn; lia. + cbn; lra.
    + cbn [nth pw_xs f] in Hv. cbn [nth pw_xs f] in HI. rewrite Hv. f_equal.
      apply (@is_RInt_unique R_CompleteNormedModule) in HI. rewrite <- HI. clear HI Hv v.
      apply (@is_RInt_unique R_CompleteNormedModule).
      apply (@is_RInt_Chasles R_NormedModule _ (1/2) 1 3 (7/4) 4).
      * apply (@is_RInt_ext R_NormedModule (fun x => 2 + 2 * x)).
        { rewrite Rmin_left, Rmax_right by lra. intros x Hx. unfold pw_value.
          rewrite (from_points_cell _ _ _ 0 x Hf eq_refl increasing_013); [|cbn; lia|cbn; lra].
          unfold interpolate. cbn. lra. }
        { evar_last; [apply (@is_RInt_derive R_CompleteNormedModule (fun x => 2 * x + x ^ 2))|].
          - intros x _. auto_derive; [exact I|ring].
          - intros x _. apply (ex_derive_continuous (fun x => 2 + 2 * x)). auto_derive. exact I.
          - unfold minus, plus, opp. cbn. lra. }
      * apply (@is_RInt_ext R_NormedModule (fun x => 6 - 2 * x)).
        { rewrite Rmin_left, Rmax_right by lra. intros x Hx. unfold pw_value.
          rewrite (from_points_cell _ _ _ 1 x Hf eq_refl increasing_013); [|cbn; lia|cbn; lra].
          unfold interpolate. cbn. lra. }
        { evar_last; [apply (@is_RInt_derive R_CompleteNormedModule (fun x => 6 * x - x ^ 2))|].
          - intros x _. auto_derive; [exact I|ring].
          - intros x _. apply (ex_derive_continuous (fun x => 6 - 2 * x)). auto_derive. exact I.
          - unfold minus, plus, opp. cbn. lra. }
Qed.
