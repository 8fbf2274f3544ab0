(** Lemmas about the integral of piecewise functions. *)
From Coq Require Import List Reals Lra Lia Bool Arith.
From Coquelicot Require Import Coquelicot.
From Verif Require Import Base PolyModel PolySpec PolyProofs PolyClassModel PolyCalc
  PiecewiseModel PiecewiseSpec PiecewiseProofs.
Import ListNotations.
Open Scope R_scope.

Lemma nth_skipn {A} (l : list A) i k d : nth k (skipn i l) d = nth (i + k) l d.
Proof.
  revert l. induction i as [|i IH]; intros [|x l]; cbn; try reflexivity; [now destruct k|apply IH].
Qed.
Lemma nth_firstn {A} (l : list A) n k d : (k < n)%nat -> nth k (firstn n l) d = nth k l d.
Proof.
  revert l k. induction n as [|n IH]; intros [|x l] [|k] H; cbn; try lia; try reflexivity.
  apply IH. lia.
Qed.
Lemma nth_slice {A} (l : list A) i j k d : (k < j - i)%nat -> nth k (slice l i j) d = nth (i + k) l d.
Proof. intros H. unfold slice. rewrite nth_firstn by exact H. apply nth_skipn. Qed.
Lemma length_slice {A} (l : list A) i j : (j <= length l)%nat -> length (slice l i j) = (j - i)%nat.
Proof. intros H. unfold slice. rewrite firstn_length, skipn_length. lia. Qed.

Lemma increasing_tl x xs : increasing (x :: xs) -> increasing xs.
Proof. intros H i j Hij. exact (H (S i) (S j) ltac:(cbn; lia)). Qed.

Lemma searchsorted_spec xs v : increasing xs ->
  (searchsorted_right xs v <= length xs)%nat /\
  (forall i, (i < searchsorted_right xs v)%nat -> nth i xs 0 <= v) /\
  (forall i, (searchsorted_right xs v <= i < length xs)%nat -> v < nth i xs 0).
Proof.
  unfold searchsorted_right. induction xs as [|x xs IH]; intros H.
  - cbn. repeat split; intros; lia.
  - specialize (IH (increasing_tl _ _ H)). destruct IH as (I1 & I2 & I3).
    cbn [filter]. destruct (Rleb_spec x v) as [L|L]; cbn [length].
    + repeat split.
      * lia.
      * intros [|i] Hi; [exact L|]. apply I2. lia.
      * intros [|i] Hi; [lia|]. apply I3. lia.
    + assert (E : filter (fun y => Rleb y v) xs = []).
      { destruct (filter (fun y => Rleb y v) xs) as [|y l] eqn:E; [reflexivity|].
        assert (Hy : In y (filter (fun y => Rleb y v) xs)) by (rewrite E; now left).
        apply filter_In in Hy. destruct Hy as [Hy Hv].
        apply (In_nth _ _ 0) in Hy. destruct Hy as [k [Hk <-]].
        pose proof (H 0%nat (S k) ltac:(cbn; lia)) as Hlt. cbn in Hlt.
        destruct (Rleb_spec (nth k xs 0) v); [lra|discriminate]. }
      rewrite E. cbn. repeat split; intros; try lia.
      destruct i as [|i]; [cbn; lra|].
      pose proof (H 0%nat (S i) ltac:(cbn in *; lia)) as Hlt. cbn in *. lra.
Qed.

(** A piece that may be integrated over [l, r]. *)
Definition piece_integrable (f : piece) (l r : R) : Prop :=
  match f with PcPoly p => py_valid p | PcConst _ => True | PcFun g => ex_RInt g l r end.

Lemma piece_integral_ok f l r : l <= r -> piece_integrable f l r ->
  exists v, piece_integral f l r = Ok v /\ is_RInt (piece_eval f) l r v.
Proof.
  intros Hlr Hf. unfold piece_integral. destruct (Rltb_spec r l); [lra|].
  destruct f as [p|c|g]; eexists; (split; [reflexivity|]).
  - apply poly_lebesgue_is_RInt. exact Hf.
  - cbn. replace (c * (r - l)) with (scal (r - l) c) by (unfold scal; cbn; unfold mult; cbn; ring).
    apply (@is_RInt_const R_NormedModule).
  - apply (@RInt_correct R_CompleteNormedModule). exact Hf.
Qed.

Lemma piece_integrable_sub f l m r s : l <= m -> m <= s -> s <= r -> piece_integrable f l r -> piece_integrable f m s.
Proof.
  intros H1 H2 H3. destruct f as [p|c|g]; cbn; auto. intros H.
  apply (@ex_RInt_Chasles_2 R_CompleteNormedModule g l m s); [lra|].
  apply (@ex_RInt_Chasles_1 R_CompleteNormedModule g l s r); [lra|exact H].
Qed.

Lemma segments (G : R -> R) b : forall fs mid a,
  length fs = S (length mid) ->
  (forall k, (k < length fs)%nat ->
     nth k (a :: mid ++ [b]) 0 <= nth (S k) (a :: mid ++ [b]) 0 /\
     piece_integrable (nth k fs (PcConst 0)) (nth k (a :: mid ++ [b]) 0) (nth (S k) (a :: mid ++ [b]) 0) /\
     (forall x, nth k (a :: mid ++ [b]) 0 < x < nth (S k) (a :: mid ++ [b]) 0 ->
        G x = piece_eval (nth k fs (PcConst 0)) x)) ->
  exists vs, mapM (fun '(g, l, r) => piece_integral g l r) (zip3 fs (a :: mid) (mid ++ [b])) = Ok vs /\
    is_RInt G a b (fold_right Rplus 0 vs).
Proof.
  induction fs as [|f fs IH]; intros mid a Hl H; [discriminate|].
  destruct (H 0%nat ltac:(cbn; lia)) as (Hle & Hint & Hval).
  destruct mid as [|m mid].
  - destruct fs; [|discriminate]. cbn [nth app] in *.
    destruct (piece_integral_ok f a b Hle Hint) as (v & Hv & Hi).
    exists [v]. cbn [app zip3 mapM]. rewrite Hv. split; [reflexivity|]. cbn. rewrite Rplus_0_r.
    apply (@is_RInt_ext R_NormedModule (piece_eval f)); [|exact Hi].
    intros x. rewrite Rmin_left, Rmax_right by exact Hle. intros Hx. symmetry. apply Hval. exact Hx.
  - cbn [nth app] in Hle, Hint, Hval.
    destruct (piece_integral_ok f a m Hle Hint) as (v & Hv & Hi).
    destruct (IH mid m) as (vs & Hvs & His).
    + cbn in *. lia.
    + intros k Hk. exact (H (S k) ltac:(cbn; lia)).
    + exists (v :: vs). cbn [app zip3 mapM]. rewrite Hv.
      cbn [app] in Hvs. cbn [bind]. rewrite Hvs. split; [reflexivity|]. cbn [fold_right].
      apply (@is_RInt_Chasles R_NormedModule G a m b v (fold_right Rplus 0 vs)); [|exact His].
      apply (@is_RInt_ext R_NormedModule (piece_eval f)); [|exact Hi].
      intros x. rewrite Rmin_left, Rmax_right by exact Hle. intros Hx. symmetry. apply Hval. exact Hx.
Qed.

Lemma fold_left_Rplus vs a : fold_left Rplus vs a = a + fold_right Rplus 0 vs.
Proof. revert a. induction vs as [|v vs IH]; intros a; cbn; [ring|]. rewrite IH. ring. Qed.

Lemma removelast_snoc {A} (l : list A) a b : removelast (a :: l ++ [b]) = a :: l.
Proof. change (a :: l ++ [b]) with ((a :: l) ++ [b]). rewrite removelast_app by discriminate. cbn. now rewrite app_nil_r. Qed.

(** Every cell of [f] can be integrated. *)
Definition pw_integrable (f : pw) : Prop :=
  forall i, (i < length (pw_fns f))%nat ->
    piece_integrable (nth i (pw_fns f) (PcConst 0)) (nth i (pw_xs f) 0) (nth (S i) (pw_xs f) 0).

Lemma pw_value_open f i x : pw_valid f -> increasing (pw_xs f) ->
  (pw_kind f = KConstant -> exists ys, pw_fns f = map PcConst ys) ->
  (i < length (pw_fns f))%nat -> nth i (pw_xs f) 0 < x < nth (S i) (pw_xs f) 0 ->
  pw_value f x = piece_eval (nth i (pw_fns f) (PcConst 0)) x.
Proof.
  intros Hv Hinc Hk Hi Hx. unfold pw_value. destruct f as [k xs fns]. cbn in *.
  assert (D : k = KConstant \/ k <> KConstant) by (destruct k; [right|right|left]; congruence).
  destruct D as [->|D].
  - destruct (Hk eq_refl) as [ys ->]. rewrite map_length in Hi.
    rewrite (pw_const_inside xs ys i x).
    + rewrite map_nth. reflexivity.
    + apply piecewise_init_ok. exact Hv.
    + exact Hinc. + exact Hi. + lra.
  - rewrite (pw_eval_inside _ i x (PcConst 0) Hv); cbn; try assumption; [reflexivity|].
    destruct i; cbn; lra.
Qed.

Lemma pw_lebesgue_knot f a j :
  pw_valid f -> increasing (pw_xs f) ->
  (pw_kind f = KConstant -> exists ys, pw_fns f = map PcConst ys) ->
  pw_integrable f ->
  (j < length (pw_xs f))%nat -> nth 0 (pw_xs f) 0 <= a <= nth j (pw_xs f) 0 ->
  exists v, pw_lebesgue a (nth j (pw_xs f) 0) f = Ok v /\
    is_RInt (pw_value f) a (nth j (pw_xs f) 0) v.
Proof.
  intros Hv Hinc Hk Hint Hj Ha. unfold pw_valid in Hv.
  unfold pw_lebesgue. set (b := nth j (pw_xs f) 0) in *.
  destruct (Rltb_spec b a); [lra|].
  destruct (searchsorted_spec (pw_xs f) a Hinc) as (A1 & A2 & A3).
  destruct (searchsorted_spec (pw_xs f) b Hinc) as (B1 & B2 & B3).
  assert (Eb : searchsorted_right (pw_xs f) b = S j).
  { destruct (lt_eq_lt_dec (searchsorted_right (pw_xs f) b) (S j)) as [[L|E]|L]; [|exact E|].
    - pose proof (B3 j ltac:(lia)). unfold b in *. lra.
    - pose proof (B2 (S j) ltac:(lia)). pose proof (Hinc j (S j) ltac:(lia)). unfold b in *. lra. }
  rewrite Eb. replace (S j - 1)%nat with j by lia.
  destruct (searchsorted_right (pw_xs f) a) as [|i] eqn:Ea.
  { pose proof (A3 0%nat ltac:(lia)). lra. }
  pose proof (A2 i ltac:(lia)) as Hi.
  assert (Hij : (i <= j)%nat).
  { destruct (le_lt_dec i j) as [L|L]; [exact L|]. pose proof (Hinc j i ltac:(lia)). unfold b in *. lra. }
  cbn zeta. rewrite Nat.add_1_r.
  destruct (Nat.eq_dec i j) as [->|Hne].
  - assert (a = b) by (unfold b in *; lra). subst a.
    exists 0. unfold slice. rewrite Nat.sub_diag. cbn [firstn zip3 mapM bind fold_left].
    split; [reflexivity|]. apply (@is_RInt_point R_NormedModule).
  - assert (Lf : length (slice (pw_fns f) i j) = (j - i)%nat) by (apply length_slice; lia).
    assert (Lm : length (slice (pw_xs f) (S i) j) = (j - S i)%nat) by (apply length_slice; lia).
    assert (Hn : forall k, (k <= j - i)%nat ->
       nth k (a :: slice (pw_xs f) (S i) j ++ [b]) 0 = if (k =? 0)%nat then a else nth (i + k) (pw_xs f) 0).
    { intros [|k] Hk'; [reflexivity|]. cbn [nth Nat.eqb].
      destruct (lt_dec k (j - S i)) as [L|L].
      - rewrite app_nth1 by lia. rewrite nth_slice by exact L. f_equal. lia.
      - rewrite app_nth2 by lia. rewrite Lm. replace (k - (j - S i))%nat with 0%nat by lia. cbn [nth].
        unfold b. f_equal. lia. }
    destruct (segments (pw_value f) b (slice (pw_fns f) i j) (slice (pw_xs f) (S i) j) a) as (vs & Hvs & His).
    + lia.
    + intros k Hk'. rewrite Lf in Hk'. rewrite !Hn by lia. cbn [Nat.eqb].
      rewrite nth_slice by exact Hk'. replace (i + S k)%nat with (S (i + k)) by lia.
      pose proof (Hint (i + k)%nat ltac:(lia)) as Hik.
      pose proof (Hinc (i + k)%nat (S (i + k)) ltac:(lia)) as Hlt.
      assert (Hlow : nth (i + k) (pw_xs f) 0 <= (if (k =? 0)%nat then a else nth (i + k) (pw_xs f) 0)
                 < nth (S (i + k)) (pw_xs f) 0).
      { destruct k as [|k]; cbn [Nat.eqb]; [|lra]. rewrite Nat.add_0_r in *. split; [lra|]. apply A3. lia. }
      split; [lra|]. split.
      * apply (piece_integrable_sub _ (nth (i + k) (pw_xs f) 0) _ (nth (S (i + k)) (pw_xs f) 0)); try lra. exact Hik.
      * intros x Hx. apply pw_value_open; try assumption; [lia|lra].
    + exists (fold_right Rplus 0 vs). cbn [app tl]. rewrite removelast_snoc, Hvs. cbn [bind].
      rewrite fold_left_Rplus, Rplus_0_l. split; [reflexivity|exact His].
Qed.

Lemma pw_lebesgue_left_error f a b : increasing (pw_xs f) -> pw_xs f <> [] -> a <= b ->
  a < nth 0 (pw_xs f) 0 -> pw_lebesgue a b f = Err ValueError.
Proof.
  intros Hinc Hne Hab Ha. unfold pw_lebesgue. destruct (Rltb_spec b a); [reflexivity|].
  destruct (searchsorted_spec (pw_xs f) a Hinc) as (A1 & A2 & A3).
  destruct (searchsorted_right (pw_xs f) a) as [|i]; [reflexivity|].
  pose proof (A2 0%nat ltac:(lia)). lra.
Qed.

Lemma pw_lebesgue_empty f a b : b < a -> pw_lebesgue a b f = Err ValueError.
Proof. intros H. unfold pw_lebesgue. destruct (Rltb_spec b a); [reflexivity|lra]. Qed.

(** Both bounds strictly inside one cell: the code returns 0. *)
Lemma pw_lebesgue_inside_cell f a b i : pw_valid f -> increasing (pw_xs f) -> (S i < length (pw_xs f))%nat ->
  nth i (pw_xs f) 0 <= a -> a <= b -> b < nth (S i) (pw_xs f) 0 -> pw_lebesgue a b f = Ok 0.
Proof.
  intros Hv Hinc Hi Ha Hab Hb. unfold pw_lebesgue. destruct (Rltb_spec b a); [lra|].
  assert (E : forall v, nth i (pw_xs f) 0 <= v < nth (S i) (pw_xs f) 0 -> searchsorted_right (pw_xs f) v = S i).
  { intros v Hvv. destruct (searchsorted_spec (pw_xs f) v Hinc) as (A1 & A2 & A3).
    destruct (lt_eq_lt_dec (searchsorted_right (pw_xs f) v) (S i)) as [[L|E]|L]; [|exact E|].
    - pose proof (A3 i ltac:(lia)). lra.
    - pose proof (A2 (S i) ltac:(lia)). lra. }
  rewrite (E a), (E b) by lra. unfold slice. replace (S i - 1 - i)%nat with 0%nat by lia. reflexivity.
Qed.
