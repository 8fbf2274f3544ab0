(** Lemmas about block matrices and concatenated operators. *)
From Coq Require Import List Arith Bool Lia ZArith Ring Field_theory.
From Verif Require Import Base BlockModel BlockSpec.
Import ListNotations.

Section Proofs.
Context {F : fops} (FL : flaws F).
Let fring : @ring_theory F f0 f1 fadd fmul fsub fopp eq := F_R (fl_field F FL).
Add Ring Fring : fring.

Lemma fsum_app (a b : list F) : fsum (a ++ b) = fadd (fsum a) (fsum b).
Proof. unfold fsum. induction a as [|x a IH]; cbn [app fold_right]; [ring|]. rewrite IH. ring. Qed.
Lemma seq_shift_by n m : seq m n = map (Nat.add m) (seq 0 n).
Proof.
  revert m. induction n as [|n IH]; intros m; [reflexivity|]. cbn [seq map]. f_equal; [lia|].
  rewrite (IH (S m)), (IH 1), map_map. apply map_ext. intros a. lia.
Qed.
Lemma sum_split (f : nat -> F) a b :
  fsum (map f (seq 0 (a + b))) = fadd (fsum (map f (seq 0 a))) (fsum (map (fun k => f (a + k)) (seq 0 b))).
Proof. rewrite seq_app, map_app, fsum_app. f_equal. rewrite Nat.add_0_l, seq_shift_by, map_map. reflexivity. Qed.
Lemma fsum_ext_seq (f g : nat -> F) n : (forall k, k < n -> f k = g k) -> fsum (map f (seq 0 n)) = fsum (map g (seq 0 n)).
Proof. intros H. f_equal. apply map_ext_in. intros k Hk. apply in_seq in Hk. apply H. lia. Qed.

Lemma mat_eq_refl (a : mat F) : mat_eq a a.
Proof. repeat split. Qed.
Lemma mat_eq_sym (a b : mat F) : mat_eq a b -> mat_eq b a.
Proof. intros (H1 & H2 & H3). repeat split; [congruence|congruence|]. intros i j Hi Hj. symmetry. apply H3; congruence. Qed.
Lemma mat_eq_trans (a b c : mat F) : mat_eq a b -> mat_eq b c -> mat_eq a c.
Proof.
  intros (H1 & H2 & H3) (K1 & K2 & K3). repeat split; [congruence|congruence|]. intros i j Hi Hj.
  rewrite H3 by assumption. apply K3; congruence.
Qed.

Lemma nth_error_ext {A} (l m : list A) : (forall i, nth_error l i = nth_error m i) -> l = m.
Proof.
  revert m. induction l as [|x l IH]; intros [|y m] H; [reflexivity|specialize (H 0); discriminate|specialize (H 0); discriminate|].
  f_equal; [specialize (H 0); now injection H|]. apply IH. intros i. exact (H (S i)).
Qed.
Lemma total_cons x l : total (x :: l) = x + total l.
Proof. reflexivity. Qed.
Lemma offset_S x l i : offset (x :: l) (S i) = x + offset l i.
Proof. reflexivity. Qed.
Lemma offset_0 l : offset l 0 = 0.
Proof. reflexivity. Qed.
(** Every position lies in exactly one segment. *)
Lemma locate (l : list nat) n : n < total l -> exists i w r, nth_error l i = Some w /\ r < w /\ n = offset l i + r.
Proof.
  revert n. induction l as [|x l IH]; intros n H; [cbn in H; lia|]. rewrite total_cons in H.
  destruct (Nat.lt_ge_cases n x) as [L|L].
  - exists 0, x, n. repeat split; assumption.
  - destruct (IH (n - x)) as (i & w & r & E & R & N); [lia|]. exists (S i), w, r. rewrite offset_S. repeat split; [exact E|exact R|lia].
Qed.
Lemma offset_lt l i w r : nth_error l i = Some w -> r < w -> offset l i + r < total l.
Proof.
  revert i. induction l as [|x l IH]; intros [|i] E R; cbn in E; try discriminate; rewrite total_cons.
  - injection E as ->. rewrite offset_0. lia.
  - rewrite offset_S. specialize (IH i E R). lia.
Qed.

(** Two matrices that display the same blocks are equal. *)
Lemma displays_unique (M N : mat F) blocks hs ws : layout blocks hs ws -> displays M blocks hs ws -> displays N blocks hs ws -> mat_eq M N.
Proof.
  intros (_ & _ & L & HL) (M1 & M2 & M3) (N1 & N2 & N3). repeat split; [congruence|congruence|]. intros i j Hi Hj.
  rewrite M1 in Hi. rewrite M2 in Hj. destruct (locate hs i Hi) as (a & h & r & Ea & Er & ->). destruct (locate ws j Hj) as (b & w & c & Eb & Ec & ->).
  destruct (nth_error blocks a) as [row|] eqn:ER.
  2:{ apply nth_error_None in ER. assert (a < length hs) by (apply nth_error_Some; congruence). lia. }
  destruct (HL a row ER) as [Lr Hr]. destruct (nth_error row b) as [blk|] eqn:EB.
  2:{ apply nth_error_None in EB. assert (b < length ws) by (apply nth_error_Some; congruence). lia. }
  destruct (Hr b blk EB) as [H1 H2]. rewrite Ea in H1. rewrite Eb in H2. injection H1 as ->. injection H2 as ->.
  rewrite (M3 a b row blk ER EB), (N3 a b row blk ER EB) by assumption. reflexivity.
Qed.

(** ** Concatenation along one axis *)
Lemma hconcat_spec (row : list (mat F)) h : row <> [] -> Forall (fun b => nrows b = h) row ->
  exists M, hconcat row = Ok M /\ nrows M = h /\ ncols M = total (map ncols row) /\
    forall j b, nth_error row j = Some b -> forall r c, c < ncols b -> entry M r (offset (map ncols row) j + c) = entry b r c.
Proof.
  destruct row as [|a row]; [congruence|]. intros _ H. unfold hconcat, concatenate. revert a H.
  induction row as [|b row IH]; intros a H; inversion H as [|? ? Ha H']; subst; cbn [cat_from].
  - exists a. repeat split; [cbn; lia|]. intros [|[|j]] b E; cbn in E; try discriminate. injection E as <-. intros r c Hc. rewrite offset_0. reflexivity.
  - destruct (IH b H') as (M & -> & R & C & E). cbn [bind]. unfold hcat2. rewrite R, Nat.eqb_refl.
    eexists. split; [reflexivity|]. cbn [nrows ncols entry]. split; [reflexivity|]. split; [cbn [map]; rewrite total_cons, C; reflexivity|].
    intros [|j] b' Eb r c Hc; cbn [map] in *.
    + cbn in Eb. injection Eb as <-. rewrite offset_0, Nat.add_0_l. destruct (Nat.ltb_spec c (ncols a)); [reflexivity|lia].
    + cbn [nth_error] in Eb. rewrite offset_S.
      destruct (Nat.ltb_spec (ncols a + offset (ncols b :: map ncols row) j + c) (ncols a)); [lia|].
      replace (ncols a + offset (ncols b :: map ncols row) j + c - ncols a) with (offset (ncols b :: map ncols row) j + c) by lia. now apply E.
Qed.
Lemma vconcat_spec (col : list (mat F)) w : col <> [] -> Forall (fun b => ncols b = w) col ->
  exists M, vconcat col = Ok M /\ ncols M = w /\ nrows M = total (map nrows col) /\
    forall i b, nth_error col i = Some b -> forall r c, r < nrows b -> entry M (offset (map nrows col) i + r) c = entry b r c.
Proof.
  destruct col as [|a col]; [congruence|]. intros _ H. unfold vconcat, concatenate. revert a H.
  induction col as [|b col IH]; intros a H; inversion H as [|? ? Ha H']; subst; cbn [cat_from].
  - exists a. repeat split; [cbn; lia|]. intros [|[|j]] b E; cbn in E; try discriminate. injection E as <-. intros r c Hc. rewrite offset_0. reflexivity.
  - destruct (IH b H') as (M & -> & C & R & E). cbn [bind]. unfold vcat2. rewrite C, Nat.eqb_refl.
    eexists. split; [reflexivity|]. cbn [nrows ncols entry]. split; [reflexivity|]. split; [cbn [map]; rewrite total_cons, R; reflexivity|].
    intros [|j] b' Eb r c Hc; cbn [map] in *.
    + cbn in Eb. injection Eb as <-. rewrite offset_0, Nat.add_0_l. destruct (Nat.ltb_spec r (nrows a)); [reflexivity|lia].
    + cbn [nth_error] in Eb. rewrite offset_S.
      destruct (Nat.ltb_spec (nrows a + offset (nrows b :: map nrows col) j + r) (nrows a)); [lia|].
      replace (nrows a + offset (nrows b :: map nrows col) j + r - nrows a) with (offset (nrows b :: map nrows col) j + r) by lia. now apply E.
Qed.
Lemma hconcat_mismatch (row : list (mat F)) M : hconcat row = Ok M -> row <> [] /\ exists h, Forall (fun b => nrows b = h) row.
Proof.
  destruct row as [|a row]; [discriminate|]. intros H. split; [discriminate|]. exists (nrows M). unfold hconcat, concatenate in H.
  revert a M H. induction row as [|b row IH]; intros a M H; cbn [cat_from] in H.
  - injection H as <-. repeat constructor.
  - destruct (cat_from hcat2 b row) as [N|] eqn:E; [|discriminate]. cbn [bind] in H. unfold hcat2 in H.
    destruct (Nat.eqb_spec (nrows a) (nrows N)); [|discriminate]. injection H as <-. cbn [nrows]. constructor; [reflexivity|].
    rewrite e. exact (IH _ _ E).
Qed.

(** ** Rows of blocks *)
Lemma layout_rows (blocks : list (list (mat F))) hs ws : layout blocks hs ws ->
  forall i row, nth_error blocks i = Some row -> row <> [] /\ map ncols row = ws /\ exists h, nth_error hs i = Some h /\ Forall (fun b => nrows b = h) row.
Proof.
  intros (Hh & Hw & L & H) i row E. destruct (H i row E) as [Lr Hr]. split; [|split].
  - intros ->. cbn in Lr. destruct ws; [congruence|discriminate].
  - apply nth_error_ext. intros j. destruct (nth_error row j) as [b|] eqn:Eb.
    + rewrite (map_nth_error _ _ _ Eb). symmetry. apply (Hr j b Eb).
    + rewrite nth_error_map, Eb. symmetry. apply nth_error_None. rewrite <- Lr. now apply nth_error_None.
  - assert (Hi : i < length hs) by (rewrite <- L; apply nth_error_Some; congruence).
    destruct (nth_error hs i) as [h|] eqn:Eh; [|apply nth_error_None in Eh; lia]. exists h. split; [reflexivity|].
    apply Forall_forall. intros b Hb. apply In_nth_error in Hb as [j Hb]. destruct (Hr j b Hb) as [X _]. congruence.
Qed.

(** [mapM] over the rows. *)
Lemma mapM_exists {A B} (f : A -> result B) (P : A -> B -> Prop) l :
  (forall x, In x l -> exists y, f x = Ok y /\ P x y) -> exists ys, mapM f l = Ok ys /\ Forall2 P l ys.
Proof.
  induction l as [|x l IH]; intros H; cbn [mapM].
  - exists []. split; [reflexivity|constructor].
  - destruct (H x (or_introl eq_refl)) as (y & -> & Py). destruct IH as (ys & -> & Pys); [intros z Hz; apply H; now right|].
    exists (y :: ys). split; [reflexivity|now constructor].
Qed.
Lemma Forall2_nth_l {A B} (P : A -> B -> Prop) l m i x : Forall2 P l m -> nth_error l i = Some x -> exists y, nth_error m i = Some y /\ P x y.
Proof.
  intros H. revert i. induction H as [|a b l m Hab H IH]; intros [|i] E; cbn in E; try discriminate.
  - injection E as <-. exists b. auto.
  - now apply IH.
Qed.
Lemma Forall2_len {A B} (P : A -> B -> Prop) l m : Forall2 P l m -> length l = length m.
Proof. induction 1; cbn; congruence. Qed.

Lemma layout_heights (blocks : list (list (mat F))) hs ws : layout blocks hs ws ->
  forall Ms, Forall2 (fun row (M : mat F) => exists h, Forall (fun b => nrows b = h) row /\ nrows M = h) blocks Ms -> map nrows Ms = hs.
Proof.
  intros HL Ms HM. pose proof (layout_rows _ _ _ HL) as HR. destruct HL as (_ & _ & L & _).
  apply nth_error_ext. intros i. destruct (nth_error blocks i) as [row|] eqn:E.
  - destruct (Forall2_nth_l _ _ _ _ _ HM E) as (M & EM & h & Hh & EH). rewrite (map_nth_error _ _ _ EM).
    destruct (HR i row E) as (Hne & _ & h' & Eh & Hh'). rewrite Eh. f_equal. subst h.
    destruct row as [|b row]; [congruence|]. inversion Hh; inversion Hh'; congruence.
  - rewrite nth_error_map. assert (nth_error Ms i = None) as ->.
    { apply nth_error_None. rewrite <- (Forall2_len _ _ _ HM). now apply nth_error_None. }
    symmetry. apply nth_error_None. rewrite <- L. now apply nth_error_None.
Qed.

Lemma np_block_spec (blocks : list (list (mat F))) hs ws : layout blocks hs ws ->
  exists M, np_block blocks = Ok M /\ displays M blocks hs ws.
Proof.
  intros HL. pose proof (layout_rows _ _ _ HL) as HR. unfold np_block.
  destruct (mapM_exists hconcat (fun row M => map ncols row = ws /\ (exists h, Forall (fun b => nrows b = h) row /\ nrows M = h) /\ ncols M = total (map ncols row) /\
    forall j b, nth_error row j = Some b -> forall r c, c < ncols b -> entry M r (offset (map ncols row) j + c) = entry b r c) blocks) as (Ms & -> & HM).
  { intros row Hin. apply In_nth_error in Hin as [i E]. destruct (HR i row E) as (Hne & EW & h & _ & Fh).
    destruct (hconcat_spec row h Hne Fh) as (M & -> & A & B & C). exists M. repeat split; try assumption. exists h. auto. }
  cbn [bind].
  assert (HH : map nrows Ms = hs).
  { apply (layout_heights blocks hs ws HL). clear -HM. induction HM as [|row M l Ms H _ IH]; constructor; [apply H|exact IH]. }
  destruct (vconcat_spec Ms (total ws)) as (M & -> & A & B & C).
  - intros ->. destruct HL as (Hh & _). cbn in HH. congruence.
  - clear -HM. induction HM as [|row M l Ms (E & _ & H & _) _ IH]; constructor; [now rewrite H, E|exact IH].
  - exists M. split; [reflexivity|]. split; [now rewrite B, HH|]. split; [exact A|].
    intros i j row b Ei Ej r c Hr Hc. destruct (Forall2_nth_l _ _ _ _ _ HM Ei) as (N & EN & EW & (h & Fh & Eh) & EC & EE).
    assert (Hb : nrows b = h) by (rewrite Forall_forall in Fh; apply Fh; exact (nth_error_In _ _ Ej)).
    rewrite <- HH, (C i N EN) by lia. rewrite <- EW. now apply EE.
Qed.

(** ** Product *)
Lemma zip_mul_cons (a : mat F) l x m : zip_mul (a :: l) (x :: m) = bind (mat_mul a x) (fun y => bind (zip_mul l m) (fun ys => Ok (y :: ys))).
Proof. reflexivity. Qed.
Lemma np_split_cons (x : mat F) s i l : np_split x s (i :: l) = row_slice x s i :: np_split x i l.
Proof. reflexivity. Qed.
Lemma np_split_zip (row : list (mat F)) h x start : row <> [] -> Forall (fun b => nrows b = h) row ->
  start + total (map ncols row) = nrows x ->
  exists ys y, zip_mul row (np_split x start (removelast (cumsum start (map ncols row)))) = Ok ys /\ np_sum ys = Ok y /\
    nrows y = h /\ ncols y = ncols x /\
    forall H, hconcat row = Ok H -> forall r c,
      entry y r c = fsum (map (fun k => fmul (entry H r k) (entry x (start + k) c)) (seq 0 (total (map ncols row)))).
Proof.
  destruct row as [|a row]; [congruence|]. intros _ HF. unfold np_sum, hconcat, concatenate. revert a start HF.
  induction row as [|b row IH]; intros a start HF HX; inversion HF as [|? ? Ha HF']; subst.
  - cbn [map cumsum removelast np_split]. rewrite zip_mul_cons. cbn [map] in HX. rewrite total_cons in HX. cbn [total fold_right] in HX.
    unfold mat_mul at 1. cbn [row_slice nrows ncols]. replace (nrows x - start) with (ncols a) by lia. rewrite Nat.eqb_refl. cbn [bind].
    do 2 eexists. split; [reflexivity|]. cbn [sum_from]. split; [reflexivity|]. cbn [nrows ncols entry]. repeat split.
    intros H [= <-] r c. rewrite total_cons. cbn [total fold_right]. rewrite Nat.add_0_r. reflexivity.
  - cbn [map] in HX. rewrite total_cons in HX.
    destruct (IH b (start + ncols a) HF') as (ys & y & E1 & E2 & R & C & EE); [cbn [map]; lia|].
    cbn [map] in *. cbn [cumsum]. cbn [cumsum] in E1.
    set (cs := start + ncols a + ncols b :: cumsum (start + ncols a + ncols b) (map ncols row)) in *.
    replace (removelast (start + ncols a :: cs)) with (start + ncols a :: removelast cs) by reflexivity.
    rewrite np_split_cons, zip_mul_cons. unfold mat_mul at 1. cbn [row_slice nrows ncols]. replace (start + ncols a - start) with (ncols a) by lia.
    rewrite Nat.eqb_refl. cbn [bind]. rewrite E1. cbn [bind].
    destruct ys as [|y0 ys]; [discriminate|]. do 2 eexists. split; [reflexivity|].
    assert (HR : nrows b = nrows a) by (inversion HF'; congruence).
    cbn [sum_from]. rewrite E2. cbn [bind nrows ncols]. rewrite R, C, !Nat.eqb_refl. cbn [andb].
    split; [reflexivity|]. cbn [mat_add nrows ncols entry]. repeat split. intros H EH r c.
    cbn [cat_from] in EH. destruct (cat_from hcat2 b row) as [N|] eqn:EN; [|discriminate]. cbn [bind] in EH. unfold hcat2 in EH.
    destruct (Nat.eqb_spec (nrows a) (nrows N)); [|discriminate]. injection EH as <-. cbn [entry ncols].
    rewrite (EE N eq_refl r c). rewrite (total_cons (ncols a)), sum_split. apply f_equal2.
    + apply fsum_ext_seq. intros k Hk. destruct (Nat.ltb_spec k (ncols a)); [reflexivity|lia].
    + apply fsum_ext_seq. intros k Hk. destruct (Nat.ltb_spec (ncols a + k) (ncols a)); [lia|].
      replace (ncols a + k - ncols a) with k by lia. replace (start + (ncols a + k)) with (start + ncols a + k) by lia. reflexivity.
Qed.

End Proofs.
