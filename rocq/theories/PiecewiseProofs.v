(** Lemmas about piecewise functions. *)
From Coq Require Import List Reals Lra Lia Bool Arith.
From Coquelicot Require Import Coquelicot.
From Verif Require Import Base PolyModel PolySpec PolyProofs PolyClassModel PolyCalc
  PiecewiseModel PiecewiseSpec.
Import ListNotations.
Open Scope R_scope.

(** ** np.piecewise *)
Lemma np_piecewise_app c1 v1 c2 v2 : length c1 = length v1 ->
  np_piecewise (c1 ++ c2) (v1 ++ v2) =
  fold_left (fun acc cv => if fst cv : bool then snd cv else acc) (combine c2 v2) (np_piecewise c1 v1).
Proof.
  intros H. unfold np_piecewise.
  assert (E : combine (c1 ++ c2) (v1 ++ v2) = combine c1 v1 ++ combine c2 v2).
  { clear -H. revert v1 H. induction c1 as [|c c1 IH]; intros [|v v1] H; try discriminate; [reflexivity|].
    cbn. f_equal. apply IH. now injection H. }
  rewrite E. apply fold_left_app.
Qed.

Lemma fold_no_cond l acc : (forall cv, In cv l -> fst cv = false) ->
  fold_left (fun acc (cv : bool * R) => if fst cv then snd cv else acc) l acc = acc.
Proof.
  revert acc. induction l as [|cv l IH]; intros acc H; [reflexivity|].
  cbn. rewrite (H cv) by (now left). apply IH. intros. apply H. now right.
Qed.

Lemma np_piecewise_none conds vals : (forall c, In c conds -> c = false) ->
  np_piecewise conds vals = 0.
Proof.
  intros H. apply fold_no_cond. intros [c v] Hc. apply H. exact (in_combine_l _ _ _ _ Hc).
Qed.

Lemma np_piecewise_unique conds vals i : (i < length conds)%nat -> length conds = length vals ->
  (forall j, (j < length conds)%nat -> nth j conds false = (j =? i)%nat) ->
  np_piecewise conds vals = nth i vals 0.
Proof.
  intros Hi Hl H.
  assert (Hc : conds = firstn i conds ++ nth i conds false :: skipn (S i) conds).
  { clear -Hi. revert i Hi. induction conds as [|c conds IH]; intros [|i] Hi; cbn in *; try lia; [reflexivity|].
    f_equal. apply IH. lia. }
  assert (Hv : vals = firstn i vals ++ nth i vals 0 :: skipn (S i) vals).
  { clear -Hi Hl. revert conds i Hi Hl. induction vals as [|c vals IH]; intros [|? conds] [|i] Hi Hl; cbn in *; try lia; [reflexivity|].
    f_equal. apply (IH conds); lia. }
  rewrite Hc, Hv. rewrite np_piecewise_app by (rewrite !firstn_length; lia).
  cbn [combine fold_left]. cbn [fst snd]. rewrite H by exact Hi. rewrite Nat.eqb_refl.
  rewrite fold_no_cond.
  - rewrite <- Hv. reflexivity.
  - intros [c v] Hcv. apply in_combine_l in Hcv. cbn.
    apply (In_nth _ _ false) in Hcv. destruct Hcv as [k [Hk Hn]].
    rewrite skipn_length in Hk. rewrite <- Hn.
    assert (E : nth k (skipn (S i) conds) false = nth (S i + k) conds false).
    { clear. generalize (S i) as m. intros m. revert conds. induction m as [|m IH]; intros [|c conds]; cbn; try reflexivity.
      - now destruct k. - apply IH. }
    rewrite E, H by lia. apply Nat.eqb_neq. lia.
Qed.

(** ** Conditions of the two evaluation methods *)
Definition gen_conds (xs : list R) (n : nat) (x : R) : list bool :=
  (Rleb (knot xs 0) x && Rleb x (knot xs 1)) :: map (half_open xs x) (range 1 n).
Definition const_conds (xs : list R) (n : nat) (x : R) : list bool :=
  map (half_open xs x) (range 0 n).

Lemma nth_map_range (f : nat -> bool) lo hi j : (j < hi - lo)%nat ->
  nth j (map f (range lo hi)) false = f (lo + j)%nat.
Proof.
  intros H. unfold range. rewrite (nth_indep _ _ (f (lo + j)%nat)) by (rewrite map_length, seq_length; lia).
  rewrite map_nth with (d := (lo + j)%nat). rewrite seq_nth by lia. reflexivity.
Qed.

Lemma gen_conds_length xs n x : (0 < n)%nat -> length (gen_conds xs n x) = n.
Proof. intros. unfold gen_conds, range. cbn [length]. rewrite map_length, seq_length. lia. Qed.
Lemma const_conds_length xs n x : length (const_conds xs n x) = n.
Proof. unfold const_conds, range. rewrite map_length, seq_length. lia. Qed.

Lemma gen_conds_nth xs n x j : (j < n)%nat ->
  nth j (gen_conds xs n x) false = true <-> in_cell xs j x.
Proof.
  intros Hj. unfold gen_conds. destruct j as [|j]; cbn [nth].
  - unfold in_cell, knot. destruct (Rleb_spec (nth 0 xs 0) x), (Rleb_spec x (nth 1 xs 0)); cbn; split; intros; try discriminate; try tauto.
  - rewrite nth_map_range by lia. unfold half_open, knot, in_cell.
    rewrite Nat.add_1_r. change (1 + j)%nat with (S j).
    destruct (Rltb_spec (nth (S j) xs 0) x), (Rleb_spec x (nth (S (S j)) xs 0)); cbn; split; intros; try discriminate; tauto.
Qed.

Lemma increasing_le xs i j : increasing xs -> (i <= j < length xs)%nat -> nth i xs 0 <= nth j xs 0.
Proof.
  intros H Hij. destruct (Nat.eq_dec i j) as [->|]; [lra|]. left. apply H. lia.
Qed.

Lemma in_cell_unique xs i j x : increasing xs -> (S i < length xs)%nat -> (S j < length xs)%nat ->
  in_cell xs i x -> in_cell xs j x -> i = j.
Proof.
  intros Hinc.
  assert (W : forall i j, (i < j)%nat -> (S j < length xs)%nat -> in_cell xs i x -> in_cell xs j x -> False).
  { clear i j. intros i j Hij Hj Hi' Hj'.
    destruct j as [|j]; [lia|]. cbn in Hj'.
    assert (nth (S i) xs 0 <= nth (S j) xs 0) by (apply increasing_le; [assumption|lia]).
    destruct i; cbn in Hi'; lra. }
  intros Hi Hj Ci Cj. destruct (lt_eq_lt_dec i j) as [[L|E]|L]; [|exact E|].
  - exfalso. eauto. - exfalso. eauto.
Qed.

Lemma in_cell_exists xs x : (2 <= length xs)%nat ->
  nth 0 xs 0 <= x <= nth (length xs - 1) xs 0 ->
  exists i, (S i < length xs)%nat /\ in_cell xs i x.
Proof.
  intros Hl [H0 H1].
  assert (W : forall k, (S k < length xs)%nat -> x <= nth (S k) xs 0 -> exists i, (S i < length xs)%nat /\ in_cell xs i x).
  { induction k as [|k IH]; intros Hk Hx.
    - exists 0%nat. split; [exact Hk|]. cbn. lra.
    - destruct (Rle_dec x (nth (S k) xs 0)) as [L|L].
      + apply IH; [lia|exact L].
      + exists (S k). split; [exact Hk|]. cbn. lra. }
  apply (W (length xs - 2)%nat); [lia|]. replace (S (length xs - 2)) with (length xs - 1)%nat by lia. exact H1.
Qed.

Lemma in_cell_range xs i x : increasing xs -> (S i < length xs)%nat -> in_cell xs i x ->
  nth 0 xs 0 <= x <= nth (length xs - 1) xs 0.
Proof.
  intros Hinc Hi Hc.
  assert (nth 0 xs 0 <= nth i xs 0) by (apply increasing_le; [assumption|lia]).
  assert (nth (S i) xs 0 <= nth (length xs - 1) xs 0) by (apply increasing_le; [assumption|lia]).
  destruct i; cbn in Hc; lra.
Qed.

(** Objects accepted by the constructor. *)
Definition pw_valid (f : pw) : Prop := S (length (pw_fns f)) = length (pw_xs f).

Lemma piecewise_init_ok k xs fns : S (length fns) = length xs ->
  piecewise_init k xs fns = Ok (mkpw k xs fns).
Proof. intros H. unfold piecewise_init. now rewrite H, Nat.eqb_refl. Qed.
Lemma piecewise_init_spec k xs fns :
  (forall f, piecewise_init k xs fns = Ok f -> f = mkpw k xs fns /\ pw_valid f) /\
  ((exists e, piecewise_init k xs fns = Err e) <-> S (length fns) <> length xs) /\
  (forall e, piecewise_init k xs fns = Err e -> e = ValueError).
Proof.
  unfold piecewise_init. destruct (Nat.eqb_spec (S (length fns)) (length xs)) as [E|E]; repeat split.
  - now injection H. - injection H as <-. exact E.
  - intros [e He]. discriminate. - intros He. congruence. - discriminate.
  - discriminate. - discriminate. - intros _. exact E. - eauto. - intros e [= <-]. reflexivity.
Qed.

(** ** Evaluation *)
Definition pw_value (f : pw) (x : R) : R := match pw_eval f x with Ok v => v | Err _ => 0 end.

Lemma map_eval_nth fns i x d : (i < length fns)%nat ->
  nth i (map (fun g => piece_eval g x) fns) 0 = piece_eval (nth i fns d) x.
Proof.
  intros H. rewrite (nth_indep _ _ (piece_eval d x)) by (rewrite map_length; exact H).
  exact (map_nth (fun g => piece_eval g x) fns d i).
Qed.

Lemma pw_eval_inside f i x d : pw_valid f -> increasing (pw_xs f) -> pw_kind f <> KConstant ->
  (i < length (pw_fns f))%nat -> in_cell (pw_xs f) i x ->
  pw_eval f x = Ok (piece_eval (nth i (pw_fns f) d) x).
Proof.
  intros Hv Hinc Hk Hi Hc. unfold pw_eval.
  destruct (Nat.eqb_spec (length (pw_fns f)) 0); [lia|]. f_equal.
  replace (match pw_kind f with KConstant => _ | _ => _ end) with (gen_conds (pw_xs f) (length (pw_fns f)) x)
    by (destruct (pw_kind f); [reflexivity|reflexivity|congruence]).
  rewrite <- map_eval_nth by exact Hi. apply np_piecewise_unique.
  - rewrite gen_conds_length; lia.
  - rewrite gen_conds_length by lia. now rewrite map_length.
  - rewrite gen_conds_length by lia. intros j Hj. unfold pw_valid in Hv.
    destruct (Nat.eqb_spec j i) as [->|E].
    + apply gen_conds_nth; assumption.
    + apply not_true_iff_false. intros T. apply gen_conds_nth in T; [|exact Hj].
      apply E. apply (in_cell_unique (pw_xs f) j i x); try assumption; lia.
Qed.

Lemma pw_eval_outside f x : pw_valid f -> increasing (pw_xs f) -> pw_fns f <> [] ->
  (x < nth 0 (pw_xs f) 0 \/ nth (length (pw_fns f)) (pw_xs f) 0 < x) ->
  pw_eval f x = Ok 0.
Proof.
  intros Hv Hinc Hne Hx. unfold pw_valid in Hv. unfold pw_eval.
  destruct (Nat.eqb_spec (length (pw_fns f)) 0) as [E|E]; [destruct (pw_fns f); [congruence|discriminate]|].
  f_equal. apply np_piecewise_none.
  assert (A : forall j, (j < length (pw_fns f))%nat -> ~ in_cell (pw_xs f) j x).
  { intros j Hj Hc. apply in_cell_range in Hc; [|assumption|lia].
    replace (length (pw_xs f) - 1)%nat with (length (pw_fns f)) in Hc by lia. lra. }
  intros c Hc. destruct c; [|reflexivity]. exfalso.
  destruct (pw_kind f).
  1, 2: change (In true (gen_conds (pw_xs f) (length (pw_fns f)) x)) in Hc;
    apply (In_nth _ _ false) in Hc; destruct Hc as [j [Hj Hn]];
    rewrite gen_conds_length in Hj by lia; apply gen_conds_nth in Hn; [|exact Hj]; now apply (A j).
  apply (In_nth _ _ false) in Hc. destruct Hc as [j [Hj Hn]].
  change (map _ _) with (const_conds (pw_xs f) (length (pw_fns f)) x) in Hj, Hn.
  rewrite const_conds_length in Hj. unfold const_conds in Hn. rewrite nth_map_range in Hn by lia.
  apply (A j Hj). cbn [Nat.add] in Hn. unfold half_open, knot in Hn. rewrite Nat.add_1_r in Hn.
  destruct (Rltb_spec (nth j (pw_xs f) 0) x), (Rleb_spec x (nth (S j) (pw_xs f) 0)); try discriminate.
  destruct j; cbn; lra.
Qed.

Lemma pw_eval_empty f x : pw_fns f = [] -> pw_eval f x = Err IndexError.
Proof. intros H. unfold pw_eval. now rewrite H. Qed.

Lemma pw_const_inside xs ys i x f : piecewise_constant xs ys = Ok f -> increasing xs ->
  (i < length ys)%nat -> nth i xs 0 < x <= nth (S i) xs 0 -> pw_eval f x = Ok (nth i ys 0).
Proof.
  intros Hf Hinc Hi Hx. apply piecewise_init_spec in Hf. destruct Hf as [-> Hv].
  unfold pw_valid in Hv. cbn in Hv. rewrite map_length in Hv.
  unfold pw_eval. cbn [pw_fns pw_xs pw_kind]. rewrite map_length.
  destruct (Nat.eqb_spec (length ys) 0); [lia|]. f_equal.
  rewrite (map_map PcConst). cbn [piece_eval]. rewrite map_id.
  change (map _ _) with (const_conds xs (length ys) x).
  apply np_piecewise_unique.
  - rewrite const_conds_length; lia.
  - now rewrite const_conds_length.
  - rewrite const_conds_length. intros j Hj. unfold const_conds. rewrite nth_map_range by lia.
    cbn [Nat.add]. unfold half_open, knot. rewrite Nat.add_1_r.
    destruct (Nat.eqb_spec j i) as [->|E].
    + destruct (Rltb_spec (nth i xs 0) x), (Rleb_spec x (nth (S i) xs 0)); cbn; try reflexivity; lra.
    + destruct (Rltb_spec (nth j xs 0) x), (Rleb_spec x (nth (S j) xs 0)); cbn; try reflexivity.
      exfalso. apply E. apply (in_cell_unique xs j i x); try assumption; try lia.
      * destruct j; cbn; lra. * destruct i; cbn; lra.
Qed.

Lemma pw_const_left xs ys f : piecewise_constant xs ys = Ok f -> increasing xs -> ys <> [] ->
  pw_eval f (nth 0 xs 0) = Ok 0.
Proof.
  intros Hf Hinc Hne. apply piecewise_init_spec in Hf. destruct Hf as [-> Hv].
  unfold pw_valid in Hv. cbn in Hv. rewrite map_length in Hv.
  unfold pw_eval. cbn [pw_fns pw_xs pw_kind]. rewrite map_length.
  destruct (Nat.eqb_spec (length ys) 0) as [E|E]; [destruct ys; [congruence|discriminate]|].
  f_equal. apply np_piecewise_none. intros c Hc.
  apply (In_nth _ _ false) in Hc. destruct Hc as [j [Hj Hn]].
  change (map _ _) with (const_conds xs (length ys) (nth 0 xs 0)) in Hj, Hn.
  rewrite const_conds_length in Hj. unfold const_conds in Hn. rewrite nth_map_range in Hn by lia.
  rewrite <- Hn. cbn [Nat.add]. unfold half_open, knot.
  assert (nth 0 xs 0 <= nth j xs 0) by (apply increasing_le; [assumption|lia]).
  destruct (Rltb_spec (nth j xs 0) (nth 0 xs 0)); [lra|reflexivity].
Qed.

(** ** Scaling and adding *)
Definition piece_ok (f : piece) : Prop := match f with PcPoly p => py_valid p | _ => True end.

Lemma piece_scale_eval c f x : piece_ok f -> piece_eval (piece_scale c f) x = c * piece_eval f x.
Proof. destruct f as [p|v|g]; cbn; intros H; [|reflexivity|reflexivity]. apply (py_eval_scale (SFloat c)). exact H. Qed.
Lemma piece_add_poly_eval f q x : piece_ok f -> py_valid q ->
  piece_eval (piece_add_poly f q) x = piece_eval f x + py_eval q x.
Proof. destruct f as [p|v|g]; cbn; intros H Hq; [|reflexivity|reflexivity]. apply py_eval_add; assumption. Qed.
Lemma piece_add_const_eval f c x : piece_ok f ->
  piece_eval (piece_add_const f c) x = piece_eval f x + c.
Proof. destruct f as [p|v|g]; cbn; intros H; [|reflexivity|reflexivity]. apply py_eval_add_const; assumption. Qed.

Lemma pw_op_value (op : piece -> piece) (h : R -> R -> R) k f x :
  (forall g, piece_ok g -> piece_eval (op g) x = h x (piece_eval g x)) ->
  List.Forall piece_ok (pw_fns f) ->
  pw_valid f -> increasing (pw_xs f) -> pw_fns f <> [] -> pw_kind f <> KConstant -> k <> KConstant ->
  exists f', piecewise_init k (pw_xs f) (map op (pw_fns f)) = Ok f' /\ pw_kind f' = k /\
    (nth 0 (pw_xs f) 0 <= x <= nth (length (pw_fns f)) (pw_xs f) 0 ->
       exists v, pw_eval f x = Ok v /\ pw_eval f' x = Ok (h x v)) /\
    (x < nth 0 (pw_xs f) 0 \/ nth (length (pw_fns f)) (pw_xs f) 0 < x ->
       pw_eval f x = Ok 0 /\ pw_eval f' x = Ok 0).
Proof.
  intros Hop Hok Hv Hinc Hne Hk Hk'. unfold pw_valid in Hv.
  exists (mkpw k (pw_xs f) (map op (pw_fns f))).
  split; [apply piecewise_init_ok; now rewrite map_length|]. split; [reflexivity|].
  assert (Hv' : pw_valid (mkpw k (pw_xs f) (map op (pw_fns f)))) by (unfold pw_valid; cbn; now rewrite map_length).
  split.
  - intros Hx. assert (L : (length (pw_fns f) <> 0)%nat) by (destruct (pw_fns f); [congruence|discriminate]).
    destruct (in_cell_exists (pw_xs f) x) as [i [Hi Hc]]; [lia| |].
    { replace (length (pw_xs f) - 1)%nat with (length (pw_fns f)) by lia. exact Hx. }
    exists (piece_eval (nth i (pw_fns f) (PcConst 0)) x).
    split; [apply pw_eval_inside; try assumption; lia|].
    rewrite (pw_eval_inside _ i x (op (PcConst 0)) Hv'); cbn; try assumption; [|rewrite map_length; lia].
    f_equal. rewrite map_nth. apply Hop. rewrite List.Forall_forall in Hok. apply Hok. apply nth_In. lia.
  - intros Hx. split.
    + apply pw_eval_outside; assumption.
    + apply pw_eval_outside; cbn; try assumption.
      * destruct (pw_fns f); [congruence|discriminate].
      * now rewrite map_length.
Qed.

(** ** Linear interpolation *)
Lemma linear_piece_eval l r yl yr x : piece_eval (linear_piece l r yl yr) x = interpolate l r yl yr x.
Proof.
  unfold linear_piece, piece_eval, py_eval, make_float. cbn [float_coeffs].
  etransitivity; [apply (peval_mkpoly RF RF_laws)|]. unfold power_sum, power_sum_from, interpolate. cbn. ring.
Qed.

Lemma linear_pieces_cons l r xs y y' ys :
  linear_pieces (l :: r :: xs) (y :: y' :: ys) = linear_piece l r y y' :: linear_pieces (r :: xs) (y' :: ys).
Proof. reflexivity. Qed.

Lemma linear_pieces_length xs ys : length xs = length ys -> length (linear_pieces xs ys) = (length xs - 1)%nat.
Proof.
  revert ys. induction xs as [|l xs IH]; intros [|y ys] H; try discriminate; [reflexivity|].
  destruct xs as [|r xs], ys as [|y' ys]; try discriminate; [reflexivity|].
  rewrite linear_pieces_cons. cbn [length]. rewrite IH by (cbn in *; congruence). cbn. lia.
Qed.

Lemma linear_pieces_length_le xs ys : (length xs <= length ys)%nat -> length (linear_pieces xs ys) = (length xs - 1)%nat.
Proof.
  revert ys. induction xs as [|l xs IH]; intros [|y ys] H; cbn in H; try lia; try reflexivity.
  destruct xs as [|r xs], ys as [|y' ys]; cbn in H; try lia; try reflexivity.
  rewrite linear_pieces_cons. cbn [length]. rewrite IH by (cbn; lia). cbn. lia.
Qed.

Lemma linear_pieces_length_gt xs ys : (length ys <= length xs)%nat -> length (linear_pieces xs ys) = (length ys - 1)%nat.
Proof.
  revert ys. induction xs as [|l xs IH]; intros [|y ys] H; cbn in H; try lia; try reflexivity; [destruct xs; reflexivity|].
  destruct xs as [|r xs], ys as [|y' ys]; cbn in H; try lia; try reflexivity.
  rewrite linear_pieces_cons. cbn [length]. rewrite IH by (cbn; lia). cbn. lia.
Qed.

Lemma linear_pieces_nth xs ys i d : length xs = length ys -> (S i < length xs)%nat ->
  nth i (linear_pieces xs ys) d =
  linear_piece (nth i xs 0) (nth (S i) xs 0) (nth i ys 0) (nth (S i) ys 0).
Proof.
  revert ys i. induction xs as [|l xs IH]; intros [|y ys] i H Hi; try discriminate; [cbn in Hi; lia|].
  destruct xs as [|r xs], ys as [|y' ys]; try discriminate; [cbn in Hi; lia|].
  destruct i as [|i]; [reflexivity|].
  rewrite linear_pieces_cons. change (nth (S i) (linear_piece l r y y' :: linear_pieces (r :: xs) (y' :: ys)) d)
    with (nth i (linear_pieces (r :: xs) (y' :: ys)) d).
  rewrite IH; [reflexivity|cbn in *; lia|cbn in *; lia].
Qed.

Lemma from_points_ok xs ys : length xs = length ys -> xs <> [] ->
  from_points xs ys = Ok (mkpw KLinear xs (linear_pieces xs ys)).
Proof.
  intros H Hne. apply piecewise_init_ok. rewrite linear_pieces_length by exact H.
  destruct xs; [congruence|cbn; lia].
Qed.

Lemma from_points_error xs ys : (exists e, from_points xs ys = Err e) <-> xs = [] \/ (length ys < length xs /\ 2 <= length xs)%nat.
Proof.
  unfold from_points. rewrite (proj1 (proj2 (piecewise_init_spec KLinear xs (linear_pieces xs ys)))).
  destruct (le_lt_dec (length xs) (length ys)) as [L|L].
  - rewrite linear_pieces_length_le by exact L. destruct xs; cbn in *; [|split; intros; [lia|destruct H as [H|H]; [discriminate|lia]]].
    split; intros; [now left|lia].
  - rewrite linear_pieces_length_gt by lia. destruct xs; cbn in *; [lia|]. split; intros; [right; lia|].
    destruct H as [H|H]; [discriminate|lia].
Qed.

Lemma from_points_cell xs ys f i x : from_points xs ys = Ok f -> length xs = length ys -> increasing xs ->
  (S i < length xs)%nat -> nth i xs 0 <= x <= nth (S i) xs 0 ->
  pw_eval f x = Ok (interpolate (nth i xs 0) (nth (S i) xs 0) (nth i ys 0) (nth (S i) ys 0) x).
Proof.
  intros Hf Hl Hinc Hi Hx. apply piecewise_init_spec in Hf. destruct Hf as [-> Hv].
  assert (Hn : length (linear_pieces xs ys) = (length xs - 1)%nat) by now apply linear_pieces_length.
  assert (W : forall i, (S i < length xs)%nat -> in_cell xs i x ->
    pw_eval (mkpw KLinear xs (linear_pieces xs ys)) x =
    Ok (interpolate (nth i xs 0) (nth (S i) xs 0) (nth i ys 0) (nth (S i) ys 0) x)).
  { clear i Hi Hx. intros i Hi Hc. rewrite (pw_eval_inside _ i x (PcConst 0)); cbn; try assumption; try congruence; [|lia].
    rewrite linear_pieces_nth by assumption. now rewrite linear_piece_eval. }
  destruct i as [|i].
  - apply W; [exact Hi|cbn; exact Hx].
  - destruct (Rle_lt_or_eq_dec _ _ (proj1 Hx)) as [L|E].
    + apply W; [exact Hi|cbn; lra].
    + rewrite (W i); [| lia |].
      * f_equal. unfold interpolate. assert (nth i xs 0 < nth (S i) xs 0) by (apply Hinc; lia).
        assert (nth (S i) xs 0 < nth (S (S i)) xs 0) by (apply Hinc; lia). rewrite <- E. field. lra.
      * assert (nth i xs 0 < nth (S i) xs 0) by (apply Hinc; lia). destruct i; cbn; lra.
Qed.

Lemma from_points_knot xs ys f i : from_points xs ys = Ok f -> length xs = length ys -> increasing xs ->
  (2 <= length xs)%nat -> (i < length xs)%nat -> pw_eval f (nth i xs 0) = Ok (nth i ys 0).
Proof.
  intros Hf Hl Hinc H2 Hi. destruct i as [|i].
  - rewrite (from_points_cell xs ys f 0) by (try assumption; try lia; pose proof (Hinc 0%nat 1%nat ltac:(lia)); lra).
    f_equal. unfold interpolate. lra.
  - assert (nth i xs 0 < nth (S i) xs 0) by (apply Hinc; lia).
    rewrite (from_points_cell xs ys f i) by (try assumption; try lia; lra).
    f_equal. unfold interpolate. field. lra.
Qed.

Lemma interpolate_continuous l r yl yr x : continuous (interpolate l r yl yr) x.
Proof. apply (ex_derive_continuous (interpolate l r yl yr)). unfold interpolate. auto_derive. exact I. Qed.

Lemma continuous_eps (g : R -> R) x : continuous g x <->
  forall eps : posreal, exists d : posreal, forall y, Rabs (y - x) < d -> Rabs (g y - g x) < eps.
Proof.
  split.
  - intros H eps. destruct (proj1 (filterlim_locally g (g x)) H eps) as [d Hd].
    exists d. intros y Hy. apply (Hd y Hy).
  - intros H. apply filterlim_locally. intros eps. destruct (H eps) as [d Hd]. exists d. intros y Hy. exact (Hd y Hy).
Qed.

Lemma from_points_continuous xs ys f x : from_points xs ys = Ok f -> length xs = length ys -> increasing xs ->
  nth 0 xs 0 < x < nth (length xs - 1) xs 0 -> continuous (pw_value f) x.
Proof.
  intros Hf Hl Hinc Hx.
  assert (H2 : (2 <= length xs)%nat).
  { destruct xs as [|a [|b xs]]; cbn in *; try lra; lia. }
  destruct (in_cell_exists xs x H2) as [i [Hi Hc]]; [lra|].
  assert (Hv : forall j y, (S j < length xs)%nat -> nth j xs 0 <= y <= nth (S j) xs 0 ->
     pw_value f y = interpolate (nth j xs 0) (nth (S j) xs 0) (nth j ys 0) (nth (S j) ys 0) y).
  { intros j y Hj Hy. unfold pw_value. now rewrite (from_points_cell xs ys f j y). }
  assert (Hlt : nth i xs 0 < x) by (destruct i; cbn in Hc; lra).
  assert (Hle : x <= nth (S i) xs 0) by (destruct i; cbn in Hc; lra).
  apply continuous_eps. intros eps.
  destruct (proj1 (continuous_eps _ _) (interpolate_continuous (nth i xs 0) (nth (S i) xs 0) (nth i ys 0) (nth (S i) ys 0) x) eps) as [d1 Hd1].
  destruct (Rle_lt_or_eq_dec _ _ Hle) as [L|E].
  - assert (P : 0 < Rmin d1 (Rmin (x - nth i xs 0) (nth (S i) xs 0 - x))).
    { pose proof (cond_pos d1). repeat apply Rmin_glb_lt; lra. }
    exists (mkposreal _ P). cbn. intros y Hy.
    pose proof (Rmin_l d1 (Rmin (x - nth i xs 0) (nth (S i) xs 0 - x))).
    pose proof (Rmin_r d1 (Rmin (x - nth i xs 0) (nth (S i) xs 0 - x))).
    pose proof (Rmin_l (x - nth i xs 0) (nth (S i) xs 0 - x)).
    pose proof (Rmin_r (x - nth i xs 0) (nth (S i) xs 0 - x)).
    apply Rabs_def2 in Hy as Hy'.
    rewrite !(Hv i) by (try assumption; lra). apply Hd1. lra.
  - assert (Hi2 : (S (S i) < length xs)%nat).
    { destruct (Nat.eq_dec (S i) (length xs - 1)) as [E'|]; [rewrite <- E' in Hx; lra|lia]. }
    assert (Hlt2 : nth (S i) xs 0 < nth (S (S i)) xs 0) by (apply Hinc; lia).
    destruct (proj1 (continuous_eps _ _) (interpolate_continuous (nth (S i) xs 0) (nth (S (S i)) xs 0) (nth (S i) ys 0) (nth (S (S i)) ys 0) x) eps) as [d2 Hd2].
    assert (P : 0 < Rmin (Rmin d1 d2) (Rmin (x - nth i xs 0) (nth (S (S i)) xs 0 - x))).
    { pose proof (cond_pos d1). pose proof (cond_pos d2). repeat apply Rmin_glb_lt; lra. }
    exists (mkposreal _ P). cbn. intros y Hy.
    pose proof (Rmin_l (Rmin d1 d2) (Rmin (x - nth i xs 0) (nth (S (S i)) xs 0 - x))).
    pose proof (Rmin_r (Rmin d1 d2) (Rmin (x - nth i xs 0) (nth (S (S i)) xs 0 - x))).
    pose proof (Rmin_l (x - nth i xs 0) (nth (S (S i)) xs 0 - x)).
    pose proof (Rmin_r (x - nth i xs 0) (nth (S (S i)) xs 0 - x)).
    pose proof (Rmin_l d1 d2). pose proof (Rmin_r d1 d2).
    apply Rabs_def2 in Hy as Hy'.
    destruct (Rle_lt_dec y x).
    + rewrite !(Hv i) by (try assumption; lra). apply Hd1. lra.
    + rewrite !(Hv (S i)) by (try assumption; lra). apply Hd2. lra.
Qed.
