(** C15: block matrices and concatenated operators are the matrices they
    display. *)
From Coq Require Import List ZArith Arith Bool Lia Qcanon.
From Verif Require Import Base BlockModel BlockSpec BlockProofs.
Import ListNotations.
Local Open Scope nat_scope.

Section Props.
Context {F : fops} (FL : flaws F).

(** ** Accepted layouts *)
Lemma block_at_nth (blocks : list (list (mat F))) i j row b :
  nth_error blocks i = Some row -> nth_error row j = Some b -> block_at blocks i j = b.
Proof. intros H1 H2. unfold block_at. rewrite (nth_error_nth blocks i [] H1). now apply nth_error_nth. Qed.

Lemma accepts (blocks : list (list (mat F))) m : mk_block_matrix blocks = Ok m <->
  exists hs ws, layout blocks hs ws /\ m = mkbm blocks (total hs) (total ws) (split_indices ws).
Proof.
  destruct blocks as [|row0 rest]; cbn [mk_block_matrix].
  { split; [discriminate|]. intros (hs & ws & (H & _ & L & _) & _). destruct hs; [congruence|discriminate]. }
  set (blocks := row0 :: rest). split.
  - destruct (existsb _ blocks) eqn:E1; [discriminate|]. destruct (forallb (fun row => length row =? length row0) blocks) eqn:E2; [|discriminate].
    cbn [negb]. destruct (forallb _ (seq 0 (length blocks))) eqn:E3; [|discriminate]. cbn [negb]. intros [= <-].
    assert (NE : forall row, In row blocks -> row <> []).
    { intros row Hr ->. assert (X : existsb (fun row : list (mat F) => length row =? 0) blocks = true) by (apply existsb_exists; exists []; auto). congruence. }
    rewrite forallb_forall in E2, E3.
    exists (map (fun row => nrows (nth 0 row dflt)) blocks), (map ncols row0). split; [|reflexivity]. split; [discriminate|]. split.
    { intros H. apply (NE row0); [now left|]. now destruct row0. }
    split; [now rewrite map_length|]. intros i row Ei. assert (Hin : In row blocks) by exact (nth_error_In _ _ Ei).
    specialize (E2 row Hin). apply Nat.eqb_eq in E2. split; [now rewrite map_length|]. intros j b Ej.
    assert (Hi : i < length blocks) by (apply nth_error_Some; congruence). assert (Hj : j < length row0) by (rewrite <- E2; apply nth_error_Some; congruence).
    specialize (E3 i ltac:(apply in_seq; lia)). rewrite forallb_forall in E3. specialize (E3 j ltac:(apply in_seq; lia)).
    apply andb_true_iff in E3 as [A B]. apply Nat.eqb_eq in A, B. rewrite (block_at_nth _ _ _ _ _ Ei Ej) in A, B. split.
    + rewrite (map_nth_error _ _ _ Ei). f_equal. rewrite A. unfold block_at. now rewrite (nth_error_nth blocks i [] Ei).
    + destruct (nth_error row0 j) as [c|] eqn:Ec; [|apply nth_error_None in Ec; lia]. rewrite (map_nth_error _ _ _ Ec). f_equal.
      rewrite B. symmetry. f_equal. now apply (block_at_nth blocks 0 j row0).
  - intros (hs & ws & HL & ->). pose proof (layout_rows _ _ _ HL) as HR.
    assert (NE : forall row, In row blocks -> row <> [] /\ length row = length ws).
    { intros row Hin. apply In_nth_error in Hin as [i Ei]. destruct (HR i row Ei) as (N & W & _). split; [exact N|]. now rewrite <- W, map_length. }
    replace (existsb _ blocks) with false.
    2:{ symmetry. apply not_true_iff_false. intros H. apply existsb_exists in H as (row & Hin & H). apply Nat.eqb_eq in H. destruct (NE row Hin) as [N _]. now destruct row. }
    replace (forallb (fun row => length row =? length row0) blocks) with true.
    2:{ symmetry. apply forallb_forall. intros row Hin. apply Nat.eqb_eq. destruct (NE row Hin) as [_ ->]. symmetry. apply NE. now left. }
    cbn [negb]. replace (forallb _ (seq 0 (length blocks))) with true.
    2:{ symmetry. apply forallb_forall. intros i Hi. apply forallb_forall. intros j Hj. apply in_seq in Hi, Hj.
        destruct (nth_error blocks i) as [row|] eqn:Ei; [|apply nth_error_None in Ei; lia].
        destruct HL as (_ & _ & _ & HH). destruct (HH i row Ei) as [Lr Hr]. destruct (HH 0 row0 eq_refl) as [L0 H0].
        assert (X : exists b, nth_error row j = Some b). { destruct (nth_error row j) as [b|] eqn:Eb; [now exists b|apply nth_error_None in Eb; lia]. }
        assert (Y : exists b, nth_error row 0 = Some b). { destruct (nth_error row 0) as [b|] eqn:Eb; [now exists b|apply nth_error_None in Eb; lia]. }
        assert (Z : exists b, nth_error row0 j = Some b). { destruct (nth_error row0 j) as [b|] eqn:Eb; [now exists b|apply nth_error_None in Eb; lia]. }
        destruct X as [b Eb], Y as [c Ec], Z as [d Ed].
        rewrite (block_at_nth _ _ _ _ _ Ei Eb), (block_at_nth _ _ _ _ _ Ei Ec), (block_at_nth blocks 0 j row0 d eq_refl Ed).
        destruct (Hr j b Eb), (Hr 0 c Ec), (H0 j d Ed). apply andb_true_iff. split; apply Nat.eqb_eq; congruence. }
    cbn [negb]. f_equal.
    assert (W : map ncols row0 = ws) by apply (HR 0 row0 eq_refl).
    assert (H : map (fun row => nrows (nth 0 row dflt)) blocks = hs).
    { apply nth_error_ext. intros i. rewrite nth_error_map. destruct (nth_error blocks i) as [row|] eqn:Ei; cbn.
      - destruct (HR i row Ei) as (N & _ & h & -> & Fh). f_equal. destruct row as [|b row]; [congruence|]. now inversion Fh.
      - symmetry. apply nth_error_None. destruct HL as (_ & _ & <- & _). now apply nth_error_None. }
    rewrite W, H. reflexivity.
Qed.
Lemma rejects (blocks : list (list (mat F))) e : mk_block_matrix blocks = Err e -> e = ValueError.
Proof.
  destruct blocks as [|row0 rest]; cbn [mk_block_matrix]; [now intros [= <-]|].
  destruct (existsb _ _); [now intros [= <-]|]. destruct (negb _); [now intros [= <-]|]. destruct (negb _); [now intros [= <-]|]. discriminate.
Qed.
(** The constructor accepts exactly the rectangular layouts and rejects all
    others with ValueError. *)
Theorem C15_block_accepts : forall blocks : list (list (mat F)),
  (forall m, mk_block_matrix blocks = Ok m <->
     exists hs ws, layout blocks hs ws /\ m = mkbm blocks (total hs) (total ws) (split_indices ws)) /\
  (forall e, mk_block_matrix blocks = Err e -> e = ValueError).
Proof. intros blocks. split; [apply accepts|apply rejects]. Qed.

(** ** Densification *)
Theorem C15_block_todense : forall (blocks : list (list (mat F))) hs ws m, layout blocks hs ws -> mk_block_matrix blocks = Ok m ->
  exists M, bm_todense m = Ok M /\ displays M blocks hs ws.
Proof.
  intros blocks hs ws m HL Hm. apply accepts in Hm as (hs' & ws' & HL' & ->). cbn [bm_todense bm_blocks]. now apply np_block_spec.
Qed.

(** ** Product *)
Lemma layout_unique (blocks : list (list (mat F))) hs ws hs' ws' : layout blocks hs ws -> layout blocks hs' ws' -> hs = hs' /\ ws = ws'.
Proof.
  intros H1 H2. pose proof (layout_rows _ _ _ H1) as R1. pose proof (layout_rows _ _ _ H2) as R2.
  destruct H1 as (A1 & _ & L1 & _), H2 as (A2 & _ & L2 & _). split.
  - apply nth_error_ext. intros i. destruct (nth_error blocks i) as [row|] eqn:E.
    + destruct (R1 i row E) as (N & _ & h & -> & Fh). destruct (R2 i row E) as (_ & _ & h' & -> & Fh'). f_equal.
      destruct row as [|b row]; [congruence|]. inversion Fh; inversion Fh'; congruence.
    + apply nth_error_None in E. transitivity (@None nat); [|symmetry]; apply nth_error_None; congruence || lia.
  - destruct blocks as [|row0 rest]; [destruct hs; [congruence|discriminate]|]. destruct (R1 0 row0 eq_refl) as (_ & <- & _). apply (R2 0 row0 eq_refl).
Qed.

Lemma matmul (blocks : list (list (mat F))) hs ws m M x : layout blocks hs ws -> mk_block_matrix blocks = Ok m ->
  displays M blocks hs ws -> nrows x = total ws -> exists y, bm_matmul m x = Ok y /\ is_product M x y.
Proof.
  intros HL Hm HD HX. apply accepts in Hm as (hs' & ws' & HL' & ->). destruct (layout_unique _ _ _ _ _ HL HL') as [<- <-]. clear HL'.
  unfold bm_matmul. cbn [bm_cols bm_split bm_blocks]. rewrite HX, Nat.eqb_refl. unfold split_indices.
  pose proof (layout_rows _ _ _ HL) as HR.
  destruct (mapM_exists (fun row => bind (zip_mul row (np_split x 0 (removelast (cumsum 0 ws)))) np_sum)
    (fun row y => (exists h, Forall (fun b => nrows b = h) row /\ nrows y = h) /\ ncols y = ncols x /\
       exists H, (forall j b, nth_error row j = Some b -> forall r c, c < ncols b -> entry H r (offset ws j + c) = entry b r c) /\
       forall r c, entry y r c = fsum (map (fun k => fmul (entry H r k) (entry x k c)) (seq 0 (total ws)))) blocks) as (ys & -> & HY).
  { intros row Hin. apply In_nth_error in Hin as [i Ei]. destruct (HR i row Ei) as (N & W & h & _ & Fh).
    destruct (np_split_zip FL row h x 0 N Fh) as (zs & y & E1 & E2 & R & C & EE); [now rewrite W, HX|]. rewrite W in *.
    rewrite E1. cbn [bind]. exists y. split; [exact E2|]. split; [now exists h|]. split; [exact C|].
    destruct (hconcat_spec row h N Fh) as (H & EH & _ & _ & HH). exists H. split; [now rewrite W in HH|]. now apply EE. }
  cbn [bind].
  assert (HH : map nrows ys = hs).
  { apply (layout_heights blocks hs ws HL). clear -HY. induction HY as [|row y l ys (H & _) _ IH]; constructor; assumption. }
  destruct (vconcat_spec ys (ncols x)) as (y & -> & C & R & E).
  - intros ->. destruct HL as (Hh & _). cbn in HH. congruence.
  - clear -HY. induction HY as [|row y l ys (_ & H & _) _ IH]; constructor; assumption.
  - exists y. split; [reflexivity|]. destruct HD as (D1 & D2 & D3). split; [congruence|]. split; [exact C|]. intros a c Ha Hc. rewrite D1 in Ha.
    destruct (locate hs a Ha) as (i & h & r & Ei & Er & ->). 
    destruct (nth_error blocks i) as [row|] eqn:Eb.
    2:{ apply nth_error_None in Eb. assert (i < length hs) by (apply nth_error_Some; congruence). destruct HL as (_ & _ & L & _). lia. }
    destruct (Forall2_nth_l _ _ _ _ _ HY Eb) as (yi & Ey & (h' & Fh & Hh) & _ & H & HB & HE).
    assert (h' = h). { rewrite <- HH, (map_nth_error _ _ _ Ey) in Ei. injection Ei as <-. congruence. } subst h'.
    rewrite <- HH, (E i yi Ey r c) by lia. rewrite HE, HH, D2. apply fsum_ext_seq. intros k Hk. f_equal.
    destruct (locate ws k Hk) as (j & w & s & Ej & Es & ->). destruct HL as (_ & _ & L & HL'). destruct (HL' i row Eb) as [Lr Hr].
    destruct (nth_error row j) as [b|] eqn:Erow.
    2:{ apply nth_error_None in Erow. assert (j < length ws) by (apply nth_error_Some; congruence). lia. }
    destruct (Hr j b Erow) as [H1 H2]. assert (ncols b = w) by congruence. assert (nrows b = h) by congruence.
    rewrite (HB j b Erow) by lia. symmetry. apply (D3 i j row b Eb Erow); lia.
Qed.
(** The block-wise product is the product with the displayed matrix; a wrong
    inner dimension is rejected. *)
Theorem C15_block_matmul : forall (blocks : list (list (mat F))) hs ws m M x, layout blocks hs ws -> mk_block_matrix blocks = Ok m ->
  displays M blocks hs ws ->
  (nrows x = total ws -> exists y, bm_matmul m x = Ok y /\ is_product M x y) /\
  (nrows x <> total ws -> bm_matmul m x = Err ValueError).
Proof.
  intros blocks hs ws m M x HL Hm HD. split; [now apply (matmul blocks hs ws)|]. intros H.
  apply accepts in Hm as (hs' & ws' & HL' & ->). destruct (layout_unique _ _ _ _ _ HL HL') as [<- <-].
  unfold bm_matmul. cbn [bm_cols]. destruct (Nat.eqb_spec (total ws) (nrows x)); [congruence|reflexivity].
Qed.

(** ** Transpose *)
Lemma nth_error_seq n i : i < n -> nth_error (seq 0 n) i = Some i.
Proof. intros H. rewrite (nth_error_nth' _ 0) by (now rewrite seq_length). now rewrite seq_nth. Qed.
Lemma transpose_nth (blocks : list (list (mat F))) hs ws j row : layout blocks hs ws -> nth_error (transpose_blocks blocks) j = Some row ->
  length row = length hs /\ j < length ws /\ forall i b, nth_error row i = Some b -> exists r c, nth_error blocks i = Some r /\ nth_error r j = Some c /\ b = mat_T c.
Proof.
  intros HL. pose proof (layout_rows _ _ _ HL) as HR. destruct HL as (A & B & L & H). unfold transpose_blocks.
  destruct blocks as [|row0 rest]; [destruct hs; [congruence|discriminate]|]. set (blocks := row0 :: rest) in *.
  assert (E0 : nth_error blocks 0 = Some row0) by reflexivity. clearbody blocks. rewrite nth_error_map. destruct (nth_error (seq 0 (length row0)) j) as [j'|] eqn:Ej; [|discriminate]. cbn [option_map]. intros [= <-].
  assert (Hj : j < length row0). { rewrite <- (seq_length (length row0) 0). apply nth_error_Some. congruence. }
  rewrite nth_error_seq in Ej by exact Hj. injection Ej as <-.
  destruct (H 0 row0 E0) as [L0 _]. split; [now rewrite map_length, seq_length|]. split; [congruence|].
  intros i b Hb. rewrite nth_error_map in Hb. destruct (nth_error (seq 0 (length blocks)) i) as [i'|] eqn:Ei; [|discriminate]. cbn in Hb. injection Hb as <-.
  assert (Hi : i < length blocks). { rewrite <- (seq_length (length blocks) 0). apply nth_error_Some. congruence. }
  rewrite nth_error_seq in Ei by exact Hi. injection Ei as <-.
  destruct (nth_error blocks i) as [r|] eqn:Er; [|apply nth_error_None in Er; lia]. destruct (H i r Er) as [Lr _].
  destruct (nth_error r j) as [c|] eqn:Ec; [|apply nth_error_None in Ec; lia].
  exists r, c. repeat split; [exact Ec|]. now rewrite (block_at_nth _ _ _ _ _ Er Ec).
Qed.
Lemma transpose_length (blocks : list (list (mat F))) hs ws : layout blocks hs ws -> length (transpose_blocks blocks) = length ws.
Proof.
  intros (A & B & L & H). destruct blocks as [|row0 rest]; [destruct hs; [congruence|discriminate]|]. cbn [transpose_blocks].
  rewrite map_length, seq_length. apply (H 0 row0 eq_refl).
Qed.
Lemma transpose_layout (blocks : list (list (mat F))) hs ws : layout blocks hs ws -> layout (transpose_blocks blocks) ws hs.
Proof.
  intros HL. pose proof (transpose_length _ _ _ HL) as TL. pose proof (fun j row => transpose_nth blocks hs ws j row HL) as TN.
  destruct HL as (A & B & L & H). split; [exact B|]. split; [exact A|]. split; [exact TL|]. intros j row E.
  destruct (TN j row E) as (Lr & Hj & Hb). split; [exact Lr|]. intros i b Eb. destruct (Hb i b Eb) as (r & c & Er & Ec & ->).
  destruct (H i r Er) as [_ Hr]. destruct (Hr j c Ec). cbn [nrows ncols mat_T]. auto.
Qed.
Lemma transpose (blocks : list (list (mat F))) hs ws m M : layout blocks hs ws -> mk_block_matrix blocks = Ok m -> displays M blocks hs ws ->
  exists m' M', bm_transpose m = Ok m' /\ bm_todense m' = Ok M' /\ mat_eq M' (mat_T M) /\
    bm_rows m' = bm_cols m /\ bm_cols m' = bm_rows m.
Proof.
  intros HL Hm HD. apply accepts in Hm as (hs' & ws' & HL' & ->). destruct (layout_unique _ _ _ _ _ HL HL') as [<- <-]. clear HL'.
  pose proof (transpose_layout _ _ _ HL) as HT. unfold bm_transpose. cbn [bm_blocks bm_rows bm_cols].
  exists (mkbm (transpose_blocks blocks) (total ws) (total hs) (split_indices hs)).
  destruct (np_block_spec _ _ _ HT) as (M' & EM & HM). exists M'. split; [apply accepts; exists ws, hs; auto|]. split; [exact EM|].
  split; [|split; reflexivity].
  apply (displays_unique _ _ _ _ _ HT HM). destruct HD as (D1 & D2 & D3). split; [exact D2|]. split; [exact D1|].
  intros j i row b Ej Ei r c Hr Hc. destruct (transpose_nth _ _ _ _ _ HL Ej) as (_ & _ & Hb). destruct (Hb i b Ei) as (r0 & c0 & Er & Ec & ->).
  cbn [mat_T nrows ncols entry] in *. now apply (D3 i j r0 c0).
Qed.
(** The transpose displays the transposed matrix. *)
Theorem C15_block_transpose : forall (blocks : list (list (mat F))) hs ws m M, layout blocks hs ws -> mk_block_matrix blocks = Ok m ->
  displays M blocks hs ws ->
  exists m' M', bm_transpose m = Ok m' /\ bm_todense m' = Ok M' /\ mat_eq M' (mat_T M) /\
    bm_rows m' = bm_cols m /\ bm_cols m' = bm_rows m.
Proof. exact transpose. Qed.

(** ** Concatenated operators *)
Definition same_cols (ops : list (mat F)) : Prop := exists w, Forall (fun b => ncols b = w) ops.
Definition same_rows (ops : list (mat F)) : Prop := exists h, Forall (fun b => nrows b = h) ops.
Definition is_axis0 (axis : Z) : Prop := axis = 0%Z \/ axis = (-2)%Z.
Definition is_axis1 (axis : Z) : Prop := axis = 1%Z \/ axis = (-1)%Z.

Lemma forallb_same {A} (f : A -> nat) a l : forallb (fun b => f b =? f a) (a :: l) = true <-> exists w, Forall (fun b => f b = w) (a :: l).
Proof.
  rewrite forallb_forall. split.
  - intros H. exists (f a). apply Forall_forall. intros b Hb. apply Nat.eqb_eq. now apply H.
  - intros [w H] b Hb. rewrite Forall_forall in H. apply Nat.eqb_eq. rewrite (H b Hb). symmetry. apply H. now left.
Qed.
Lemma mk_concat_cases (ops : list (mat F)) axis : mk_concat ops axis =
  match ops with
  | [] => Err ValueError
  | a :: _ =>
     if existsb (Z.eqb axis) [0; -2]%Z then
       if forallb (fun b => ncols b =? ncols a) ops then Ok (mkcat ops false (total (map nrows ops)) (ncols a) []) else Err AssertionError
     else if existsb (Z.eqb axis) [1; -1]%Z then
       if forallb (fun b => nrows b =? nrows a) ops then Ok (mkcat ops true (nrows a) (total (map ncols ops)) (split_indices (map ncols ops))) else Err AssertionError
     else Err ValueError
  end.
Proof.
  destruct ops as [|a ops]; [reflexivity|]. unfold mk_concat. cbn [existsb].
  destruct (Z.eqb_spec axis 0) as [->|]; [reflexivity|]. destruct (Z.eqb_spec axis 1) as [->|]; [reflexivity|].
  destruct (Z.eqb_spec axis (-1)) as [->|]; [reflexivity|]. destruct (Z.eqb_spec axis (-2)) as [->|]; reflexivity.
Qed.
Lemma concat_accepts (ops : list (mat F)) axis m : mk_concat ops axis = Ok m <->
  ops <> [] /\ ((is_axis0 axis /\ exists w, Forall (fun b => ncols b = w) ops /\ m = mkcat ops false (total (map nrows ops)) w []) \/
                (is_axis1 axis /\ exists h, Forall (fun b => nrows b = h) ops /\ m = mkcat ops true h (total (map ncols ops)) (split_indices (map ncols ops)))).
Proof.
  rewrite mk_concat_cases. destruct ops as [|a ops]; [split; [discriminate|intros [H _]; congruence]|].
  unfold is_axis0, is_axis1. cbn [existsb]. split.
  - intros H. split; [discriminate|].
    assert (K : forall (x : Z) y, (x =? y)%Z = true -> x = y) by (intros x y; apply Z.eqb_eq).
    destruct (axis =? 0)%Z eqn:E0; [|destruct (axis =? -2)%Z eqn:E2]; cbn [orb] in H.
    1,2: left; split; [auto|]; destruct (forallb _ _) eqn:Ef; [|discriminate]; injection H as <-; exists (ncols a); split; [|reflexivity];
        rewrite forallb_forall in Ef; apply Forall_forall; intros b Hb; apply Nat.eqb_eq; now apply Ef.
    right. destruct (axis =? 1)%Z eqn:E1; [|destruct (axis =? -1)%Z eqn:E3]; cbn [orb] in H; [| |discriminate].
    1,2: split; [auto|]; destruct (forallb _ _) eqn:Ef; [|discriminate]; injection H as <-; exists (nrows a); split; [|reflexivity];
        rewrite forallb_forall in Ef; apply Forall_forall; intros b Hb; apply Nat.eqb_eq; now apply Ef.
  - intros [_ [[H (w & Hw & ->)]|[H (h & Hh & ->)]]].
    + assert (Ea : ncols a = w) by (now inversion Hw).
      replace (forallb (fun b => ncols b =? ncols a) (a :: ops)) with true by (symmetry; apply forallb_same; now exists w).
      destruct H as [->| ->]; cbn; now rewrite Ea.
    + assert (Ea : nrows a = h) by (now inversion Hh).
      replace (forallb (fun b => nrows b =? nrows a) (a :: ops)) with true by (symmetry; apply forallb_same; now exists h).
      destruct H as [->| ->]; cbn; now rewrite Ea.
Qed.
(** Construction: at least one operator, a legal axis and equal sizes along the
    other axis; the error class says which check failed. *)
Theorem C15_concat_accepts : forall (ops : list (mat F)) axis,
  ((exists m, mk_concat ops axis = Ok m) <->
     ops <> [] /\ ((is_axis0 axis /\ same_cols ops) \/ (is_axis1 axis /\ same_rows ops))) /\
  (forall m, mk_concat ops axis = Ok m -> cat_ops m = ops) /\
  (mk_concat ops axis = Err ValueError <-> ops = [] \/ (~ is_axis0 axis /\ ~ is_axis1 axis)) /\
  (forall e, mk_concat ops axis = Err e -> e = ValueError \/ e = AssertionError).
Proof.
  intros ops axis. split; [|split; [|split]].
  - split.
    + intros [m Hm]. apply concat_accepts in Hm as [N [[A (w & H & _)]|[A (h & H & _)]]]; (split; [exact N|]); [left|right]; (split; [exact A|]); eexists; exact H.
    + intros [N [[A [w H]]|[A [h H]]]]; eexists; apply concat_accepts; (split; [exact N|]); [left|right]; (split; [exact A|]); eexists; (split; [exact H|reflexivity]).
  - intros m Hm. apply concat_accepts in Hm as [_ [[_ (w & _ & ->)]|[_ (h & _ & ->)]]]; reflexivity.
  - rewrite mk_concat_cases. unfold is_axis0, is_axis1. destruct ops as [|a ops]; [tauto|]. cbn [existsb].
    destruct (Z.eqb_spec axis 0), (Z.eqb_spec axis (-2)), (Z.eqb_spec axis 1), (Z.eqb_spec axis (-1)); cbn [orb]; try lia;
      try destruct (forallb _ _); split; intros H; try discriminate; try (destruct H as [H|[H1 H2]]; [discriminate|]; exfalso; tauto); try (right; lia); reflexivity.
  - intros e. rewrite mk_concat_cases. destruct ops as [|a ops]; [intros [= <-]; now left|].
    destruct (existsb _ _); [destruct (forallb _ _); [discriminate|intros [= <-]; now right]|].
    destruct (existsb _ _); [destruct (forallb _ _); [discriminate|intros [= <-]; now right]|]. intros [= <-]. now left.
Qed.

(** A concatenation along axis 0 shows the one-column layout, along axis 1 the
    one-row layout. *)
Definition cat_layout (ops : list (mat F)) (axis : Z) (blocks : list (list (mat F))) (hs ws : list nat) : Prop :=
  (is_axis0 axis /\ blocks = map (fun b => [b]) ops /\ hs = map nrows ops /\ exists w, ws = [w] /\ Forall (fun b => ncols b = w) ops) \/
  (is_axis1 axis /\ blocks = [ops] /\ ws = map ncols ops /\ exists h, hs = [h] /\ Forall (fun b => nrows b = h) ops).

Lemma cat_layout_layout ops axis blocks hs ws : ops <> [] -> cat_layout ops axis blocks hs ws -> layout blocks hs ws.
Proof.
  intros N [(_ & -> & -> & w & -> & H)|(_ & -> & -> & h & -> & H)].
  - split; [now destruct ops|]. split; [discriminate|]. split; [now rewrite !map_length|]. intros i row E.
    rewrite nth_error_map in E. destruct (nth_error ops i) as [b|] eqn:Eb; [|discriminate]. cbn in E. injection E as <-. split; [reflexivity|].
    intros [|[|j]] c Ec; cbn in Ec; try discriminate. injection Ec as <-. rewrite (map_nth_error _ _ _ Eb). split; [reflexivity|]. cbn.
    f_equal. rewrite Forall_forall in H. symmetry. apply H. exact (nth_error_In _ _ Eb).
  - split; [discriminate|]. split; [now destruct ops|]. split; [reflexivity|]. intros [|[|i]] row E; cbn in E; try discriminate. injection E as <-.
    split; [now rewrite map_length|]. intros j b Eb. rewrite (map_nth_error _ _ _ Eb). split; [|reflexivity]. cbn. f_equal.
    rewrite Forall_forall in H. symmetry. apply H. exact (nth_error_In _ _ Eb).
Qed.
Lemma axis_excl axis : is_axis0 axis -> is_axis1 axis -> False.
Proof. unfold is_axis0, is_axis1. lia. Qed.

Lemma cat_dense ops axis m blocks hs ws : mk_concat ops axis = Ok m -> cat_layout ops axis blocks hs ws ->
  exists M, cat_todense m = Ok M /\ displays M blocks hs ws.
Proof.
  intros Hm HC. apply concat_accepts in Hm as [N [[A (w & H & ->)]|[A (h & H & ->)]]]; unfold cat_todense; cbn [cat_axis1 cat_ops].
  - destruct HC as [(_ & -> & -> & w' & -> & H')|(A' & _)]; [|destruct (axis_excl axis A A')].
    assert (w' = w) by (destruct ops; [congruence|]; inversion H; inversion H'; congruence). subst w'.
    destruct (vconcat_spec ops w N H) as (M & -> & C & R & E). exists M. split; [reflexivity|]. split; [exact R|]. split; [cbn; lia|].
    intros i j row b Ei Ej r c Hr Hc. rewrite nth_error_map in Ei. destruct (nth_error ops i) as [b'|] eqn:Eb; [|discriminate]. cbn in Ei. injection Ei as <-.
    destruct j as [|[|j]]; cbn in Ej; try discriminate. injection Ej as ->. rewrite offset_0, Nat.add_0_l. now apply E.
  - destruct HC as [(A' & _)|(_ & -> & -> & h' & -> & H')]; [destruct (axis_excl axis A' A)|].
    assert (h' = h) by (destruct ops; [congruence|]; inversion H; inversion H'; congruence). subst h'.
    destruct (hconcat_spec ops h N H) as (M & -> & R & C & E). exists M. split; [reflexivity|]. split; [cbn; lia|]. split; [exact C|].
    intros i j row b Ei Ej r c Hr Hc. destruct i as [|[|i]]; cbn in Ei; try discriminate. injection Ei as <-. rewrite offset_0, Nat.add_0_l. now apply E.
Qed.
Theorem C15_concat_todense : forall ops axis m blocks hs ws, mk_concat ops axis = Ok m -> cat_layout ops axis blocks hs ws ->
  exists M, cat_todense m = Ok M /\ displays M blocks hs ws /\ nrows M = cat_rows m /\ ncols M = cat_cols m.
Proof.
  intros ops axis m blocks hs ws Hm HC. destruct (cat_dense _ _ _ _ _ _ Hm HC) as (M & E & D). exists M. split; [exact E|]. split; [exact D|].
  destruct D as (D1 & D2 & _). apply concat_accepts in Hm as [N [[A (w & H & ->)]|[A (h & H & ->)]]]; cbn [cat_rows cat_cols].
  - destruct HC as [(_ & -> & -> & w' & -> & H')|(A' & _)]; [|destruct (axis_excl axis A A')].
    assert (w' = w) by (destruct ops; [congruence|]; inversion H; inversion H'; congruence). subst w'. split; [exact D1|]. rewrite D2. cbn. lia.
  - destruct HC as [(A' & _)|(_ & -> & -> & h' & -> & H')]; [destruct (axis_excl axis A' A)|].
    assert (h' = h) by (destruct ops; [congruence|]; inversion H; inversion H'; congruence). subst h'. split; [|exact D2]. rewrite D1. cbn. lia.
Qed.

Lemma cat_mul ops axis m blocks hs ws M x : mk_concat ops axis = Ok m -> cat_layout ops axis blocks hs ws -> displays M blocks hs ws ->
  nrows x = total ws -> exists y, cat_matmul m x = Ok y /\ is_product M x y.
Proof.
  intros Hm HC HD HX. pose proof (cat_dense _ _ _ _ _ _ Hm HC) as (M0 & EM & HM0).
  apply concat_accepts in Hm as [N [[A (w & H & ->)]|[A (h & H & ->)]]]; unfold cat_matmul, cat_todense in *; cbn [cat_axis1 cat_ops cat_cols cat_split] in *.
  - pose proof (displays_unique _ _ _ _ _ (cat_layout_layout _ _ _ _ _ N HC) HD HM0) as (U1 & U2 & U3).
    destruct HC as [(_ & -> & -> & w' & -> & H')|(A' & _)]; [|destruct (axis_excl axis A A')].
    assert (w' = w) by (destruct ops; [congruence|]; inversion H; inversion H'; congruence). subst w'.
    assert (W : w = nrows x) by (cbn in HX; lia). rewrite W, Nat.eqb_refl.
    destruct (mapM_exists (fun a => mat_mul a x) (fun a y => mat_mul a x = Ok y) ops) as (ys & -> & HY).
    { intros a Ha. rewrite Forall_forall in H. unfold mat_mul. rewrite (H a Ha), W, Nat.eqb_refl. eexists. split; reflexivity. }
    cbn [bind].
    assert (HYn : map nrows ys = map nrows ops /\ Forall (fun b => ncols b = ncols x) ys /\ ys <> []).
    { split; [|split].
      - clear -HY. induction HY as [|a y l ys E _ IH]; [reflexivity|]. cbn. rewrite IH. f_equal. unfold mat_mul in E. destruct (Nat.eqb_spec (ncols a) (nrows x)); [|discriminate]. injection E as <-. reflexivity.
      - clear -HY. induction HY as [|a y l ys E _ IH]; [constructor|]. constructor; [|exact IH]. unfold mat_mul in E. destruct (Nat.eqb_spec (ncols a) (nrows x)); [|discriminate]. injection E as <-. reflexivity.
      - inversion HY; subst; [congruence|discriminate]. }
    destruct HYn as (HR & HCc & HNy). destruct (vconcat_spec ys (ncols x) HNy HCc) as (y & -> & C & R & E). exists y. split; [reflexivity|].
    destruct (vconcat_spec ops w N H) as (M1 & EM1 & C1 & R1 & E1). rewrite EM1 in EM. injection EM as <-.
    split; [congruence|]. split; [exact C|]. intros a c Ha Hc. rewrite U1, R1 in Ha.
    destruct (locate _ a Ha) as (i & hh & r & Ei & Er & ->). rewrite nth_error_map in Ei. destruct (nth_error ops i) as [b|] eqn:Eb; [|discriminate]. cbn in Ei. injection Ei as <-.
    destruct (Forall2_nth_l _ _ _ _ _ HY Eb) as (yi & Eyi & Emul). pose proof Emul as Emul'. unfold mat_mul in Emul. destruct (Nat.eqb_spec (ncols b) (nrows x)) as [Ec|]; [|discriminate]. injection Emul as <-.
    rewrite <- HR at 1. rewrite (E i _ Eyi r c) by (cbn; lia). cbn [entry]. rewrite U2, C1. rewrite Ec, <- W. apply fsum_ext_seq. intros k Hk. f_equal. symmetry.
    rewrite U3; [|rewrite U1, R1; exact Ha|rewrite U2, C1; exact Hk]. now apply E1.
  - pose proof (displays_unique _ _ _ _ _ (cat_layout_layout _ _ _ _ _ N HC) HD HM0) as (U1 & U2 & U3).
    destruct HC as [(A' & _)|(_ & -> & -> & h' & -> & H')]; [destruct (axis_excl axis A' A)|].
    assert (h' = h) by (destruct ops; [congruence|]; inversion H; inversion H'; congruence). subst h'. rewrite HX, Nat.eqb_refl.
    destruct (np_split_zip FL ops h x 0 N H) as (ys & y & E1 & E2 & R & C & EE); [now rewrite HX|].
    unfold split_indices. rewrite E1. cbn [bind]. exists y. split; [exact E2|].
    destruct (hconcat_spec ops h N H) as (M1 & EM1 & R1 & C1 & _). rewrite EM1 in EM. injection EM as <-.
    split; [congruence|]. split; [exact C|]. intros a c Ha Hc. rewrite (EE M1 EM1), U2, C1. apply fsum_ext_seq. intros k Hk. f_equal.
    symmetry. apply U3; [exact Ha|now rewrite U2, C1].
Qed.
Theorem C15_concat_matmul : forall ops axis m blocks hs ws M x, mk_concat ops axis = Ok m -> cat_layout ops axis blocks hs ws ->
  displays M blocks hs ws ->
  (nrows x = total ws -> exists y, cat_matmul m x = Ok y /\ is_product M x y) /\
  (nrows x <> total ws -> cat_matmul m x = Err ValueError).
Proof.
  intros ops axis m blocks hs ws M x Hm HC HD. split; [now apply (cat_mul ops axis m blocks hs ws M x)|]. intros H.
  destruct (C15_concat_todense _ _ _ _ _ _ Hm HC) as (M' & E & (_ & D2 & _) & _ & C).
  unfold cat_matmul. destruct (Nat.eqb_spec (cat_cols m) (nrows x)); [|reflexivity]. destruct H. congruence.
Qed.

(** ** The array operations behind the products and the densification *)
(** Concatenating succeeds exactly for a non-empty list of arrays that agree in
    the other axis, and summing exactly for a non-empty list of equally shaped
    arrays, which gives the entrywise sum; everything else is a ValueError. *)
Lemma hconcat_err (l : list (mat F)) e : hconcat l = Err e -> e = ValueError.
Proof.
  destruct l as [|a l]; [now intros [= <-]|]. unfold hconcat, concatenate. revert a. induction l as [|b l IH]; intros a; cbn [cat_from]; [discriminate|].
  destruct (cat_from hcat2 b l) as [N|e'] eqn:E; cbn [bind].
  - unfold hcat2. destruct (_ =? _); [discriminate|now intros [= <-]].
  - intros [= <-]. exact (IH b E).
Qed.
Lemma vconcat_err (l : list (mat F)) e : vconcat l = Err e -> e = ValueError.
Proof.
  destruct l as [|a l]; [now intros [= <-]|]. unfold vconcat, concatenate. revert a. induction l as [|b l IH]; intros a; cbn [cat_from]; [discriminate|].
  destruct (cat_from vcat2 b l) as [N|e'] eqn:E; cbn [bind].
  - unfold vcat2. destruct (_ =? _); [discriminate|now intros [= <-]].
  - intros [= <-]. exact (IH b E).
Qed.
Lemma vconcat_mismatch (col : list (mat F)) M : vconcat col = Ok M -> col <> [] /\ exists w, Forall (fun b => ncols b = w) col.
Proof.
  destruct col as [|a col]; [discriminate|]. intros H. split; [discriminate|]. exists (ncols M). unfold vconcat, concatenate in H.
  revert a M H. induction col as [|b col IH]; intros a M H; cbn [cat_from] in H.
  - injection H as <-. repeat constructor.
  - destruct (cat_from vcat2 b col) as [N|] eqn:E; [|discriminate]. cbn [bind] in H. unfold vcat2 in H.
    destruct (Nat.eqb_spec (ncols a) (ncols N)); [|discriminate]. injection H as <-. cbn [ncols]. constructor; [reflexivity|].
    rewrite e. exact (IH _ _ E).
Qed.
Theorem C15_concatenate : forall l : list (mat F),
  ((exists M, hconcat l = Ok M) <-> l <> [] /\ same_rows l) /\ ((exists M, vconcat l = Ok M) <-> l <> [] /\ same_cols l) /\
  (forall e, hconcat l = Err e -> e = ValueError) /\ (forall e, vconcat l = Err e -> e = ValueError).
Proof.
  intros l. split; [|split; [|split; [intros e; apply hconcat_err|intros e; apply vconcat_err]]]; (split; [intros [M H]|intros [N [h H]]]).
  - exact (hconcat_mismatch _ _ H).
  - destruct (hconcat_spec _ _ N H) as (M & E & _). now exists M.
  - exact (vconcat_mismatch _ _ H).
  - destruct (vconcat_spec _ _ N H) as (M & E & _). now exists M.
Qed.
(** Entry (i, j) of the sum of the arrays. *)
Fixpoint sum_entry (l : list (mat F)) (i j : nat) : F :=
  match l with [] => f0 | [a] => entry a i j | a :: l' => fadd (entry a i j) (sum_entry l' i j) end.
Theorem C15_sum : forall l : list (mat F),
  (forall M, np_sum l = Ok M -> l <> [] /\ Forall (fun b => nrows b = nrows M /\ ncols b = ncols M) l /\
     forall i j, entry M i j = sum_entry l i j) /\
  (l <> [] -> (exists r c, Forall (fun b => nrows b = r /\ ncols b = c) l) -> exists M, np_sum l = Ok M) /\
  (forall e, np_sum l = Err e -> e = ValueError).
Proof.
  intros [|a l]; [split; [discriminate|split; [congruence|now intros e [= <-]]]|]. unfold np_sum. revert a.
  induction l as [|b l IH]; intros a; cbn [sum_from].
  - split; [|split; [intros _ _; now exists a|discriminate]]. intros M [= <-]. split; [discriminate|]. split; [repeat constructor|reflexivity].
  - destruct (IH b) as (I1 & I2 & I3). destruct (sum_from b l) as [N|e'] eqn:E; cbn [bind].
    + destruct (I1 N eq_refl) as (_ & FN & EN).
      destruct (Nat.eqb_spec (nrows a) (nrows N)) as [R|R], (Nat.eqb_spec (ncols a) (ncols N)) as [C|C]; cbn [andb].
      1: { split; [|split; [intros _ _; eexists; reflexivity|discriminate]]. intros M [= <-]. split; [discriminate|]. cbn [mat_add nrows ncols].
           rewrite R, C. split; [constructor; [now split|exact FN]|]. intros i j. change (entry (mat_add a N) i j) with (fadd (entry a i j) (entry N i j)). now rewrite EN. }
      all: split; [discriminate|]; (split; [|now intros e [= <-]]); intros _ (r & c & H); inversion H as [|? ? [Ha Hb] H']; subst;
        inversion FN as [|? ? [Hc Hd] _]; inversion H' as [|? ? [He Hf] _]; subst; congruence.
    + split; [discriminate|]. split; [|intros e [= <-]; now apply I3]. intros _ (r & c & H). exfalso.
      inversion H as [|? ? _ H']; subst. destruct (I2 ltac:(discriminate) ltac:(now exists r, c)) as [M D]. discriminate.
Qed.

Lemma cat_tr (ops : list (mat F)) axis m M : mk_concat ops axis = Ok m -> cat_todense m = Ok M ->
  exists m' M', cat_transpose m = Ok m' /\ cat_todense m' = Ok M' /\ mat_eq M' (mat_T M) /\ cat_axis1 m' = negb (cat_axis1 m).
Proof.
  intros Hm EM. apply concat_accepts in Hm as [N [[A (w & H & ->)]|[A (h & H & ->)]]]; unfold cat_transpose, cat_todense in *; cbn [cat_axis1 cat_ops] in *.
  - assert (N' : map (@mat_T F) ops <> []) by (now destruct ops).
    assert (H' : Forall (fun b => nrows b = w) (map (@mat_T F) ops)) by (rewrite Forall_map; exact H).
    eexists. destruct (hconcat_spec _ _ N' H') as (M' & EM' & R & C & E). exists M'. split.
    { apply concat_accepts. split; [exact N'|]. right. split; [now left|]. exists w. split; [exact H'|reflexivity]. }
    cbn [cat_axis1 cat_ops negb]. split; [exact EM'|]. split; [|reflexivity].
    destruct (vconcat_spec ops w N H) as (M1 & EM1 & C1 & R1 & E1). rewrite EM1 in EM. injection EM as <-.
    assert (W : map ncols (map (@mat_T F) ops) = map nrows ops) by (rewrite map_map; reflexivity).
    repeat split; cbn [mat_T nrows ncols entry]; [congruence|congruence|]. intros i j Hi Hj. rewrite C, W in Hj.
    destruct (locate _ j Hj) as (k & hh & r & Ek & Er & ->). rewrite nth_error_map in Ek. destruct (nth_error ops k) as [b|] eqn:Eb; [|discriminate]. cbn in Ek. injection Ek as <-.
    rewrite (E1 k b Eb r i Er). rewrite <- W. rewrite (E k (mat_T b)); [reflexivity|now apply map_nth_error|exact Er].
  - assert (N' : map (@mat_T F) ops <> []) by (now destruct ops).
    assert (H' : Forall (fun b => ncols b = h) (map (@mat_T F) ops)) by (rewrite Forall_map; exact H).
    eexists. destruct (vconcat_spec _ _ N' H') as (M' & EM' & C & R & E). exists M'. split.
    { apply concat_accepts. split; [exact N'|]. left. split; [now left|]. exists h. split; [exact H'|reflexivity]. }
    cbn [cat_axis1 cat_ops negb]. split; [exact EM'|]. split; [|reflexivity].
    destruct (hconcat_spec ops h N H) as (M1 & EM1 & R1 & C1 & E1). rewrite EM1 in EM. injection EM as <-.
    assert (W : map nrows (map (@mat_T F) ops) = map ncols ops) by (rewrite map_map; reflexivity).
    repeat split; cbn [mat_T nrows ncols entry]; [congruence|congruence|]. intros i j Hi Hj. rewrite R, W in Hi.
    destruct (locate _ i Hi) as (k & ww & c & Ek & Ec & ->). rewrite nth_error_map in Ek. destruct (nth_error ops k) as [b|] eqn:Eb; [|discriminate]. cbn in Ek. injection Ek as <-.
    rewrite (E1 k b Eb j c Ec). rewrite <- W. rewrite (E k (mat_T b)); [reflexivity|now apply map_nth_error|exact Ec].
Qed.
Theorem C15_concat_transpose : forall (ops : list (mat F)) axis m M, mk_concat ops axis = Ok m -> cat_todense m = Ok M ->
  exists m' M', cat_transpose m = Ok m' /\ cat_todense m' = Ok M' /\ mat_eq M' (mat_T M) /\ cat_axis1 m' = negb (cat_axis1 m).
Proof. exact cat_tr. Qed.
End Props.
Print Assumptions C15_block_accepts.
Print Assumptions C15_block_todense.
Print Assumptions C15_block_matmul.
Print Assumptions C15_block_transpose.
Print Assumptions C15_concat_accepts.
Print Assumptions C15_concat_todense.
Print Assumptions C15_concat_matmul.
Print Assumptions C15_concatenate.
Print Assumptions C15_sum.
Print Assumptions C15_concat_transpose.

(** A 2x3 layout with blocks of different sizes meets the hypotheses. *)
Definition ex_block (r c : nat) (v : Qc) : mat QcF := mkmat (F := QcF) r c (fun i j => (v + @fnat QcF i)%Qc).
Example C15_example : layout [[ex_block 1 2 1; ex_block 1 1 0; ex_block 1 3 1]; [ex_block 2 2 0; ex_block 2 1 0; ex_block 2 3 1]] [1; 2] [2; 1; 3] /\
  ~ (exists hs ws, layout [[ex_block 1 2 1; ex_block 1 1 0]; [ex_block 2 2 0; ex_block 2 3 0]] hs ws).
Proof.
  split.
  - split; [discriminate|]. split; [discriminate|]. split; [reflexivity|].
    intros [|[|[|i]]] row E; cbn in E; try discriminate; injection E as <-; (split; [reflexivity|]);
      intros [|[|[|[|j]]]] b E; cbn in E; try discriminate; injection E as <-; auto.
  - intros (hs & ws & (_ & _ & _ & H)). destruct (H 0 _ eq_refl) as [_ H0]. destruct (H 1 _ eq_refl) as [_ H1].
    destruct (H0 1 _ eq_refl) as [_ A]. destruct (H1 1 _ eq_refl) as [_ B]. cbn in A, B. congruence.
Qed.
