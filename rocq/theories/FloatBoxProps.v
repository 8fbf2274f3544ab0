(** C78: boxes and their uniform grids in double precision. *)
From Coq Require Import List Reals Bool Arith ZArith Lia Lra Psatz.
From Coq.Floats Require Import SpecFloat.
From Flocq Require Import Core Relative BinarySingleNaN.
From Verif Require Import Base FloatModel FloatProofs FloatRoundSpec FloatRound FloatErr FloatRoundProps FloatUniformProps FloatGridModel FloatGridProps FloatBoxModel.
Import ListNotations.
Open Scope R_scope.
#[local] Existing Instance FloatRound.Hprec.
#[local] Existing Instance FloatRound.Hmax.

(** ** Specification *)
(** Bounds that are finite doubles *)
Definition row_fin (b : frow) : Prop := valid (fst b) /\ valid (snd b) /\ fin (fst b) /\ fin (snd b).
Definition ordered (b : frow) : Prop := val (fst b) <= val (snd b).
Definition width (b : frow) : R := val (snd b) - val (fst b).
(** The sides whose bounds differ *)
Definition sides (rows : list frow) : list frow := filter (fun b => if Req_EM_T (val (fst b)) (val (snd b)) then false else true) rows.
Definition dnan : frow := (S754_nan, S754_nan).

Lemma eqb_val a b : valid a -> valid b -> fin a -> fin b -> SFeqb a b = if Req_EM_T (val a) (val b) then true else false.
Proof.
  intros Va Vb Fa Fb. destruct (of_valid a Va) as [x ->], (of_valid b Vb) as [y ->]. unfold fin, val in *. rewrite is_finite_SF_B2SF in *. rewrite !SF2R_B2SF.
  change (SFeqb (B2SF x) (B2SF y)) with (Beqb x y). rewrite Beqb_correct by assumption. destruct (Req_EM_T (B2R x) (B2R y)) as [E|E]; [now apply Req_bool_true|now apply Req_bool_false].
Qed.
Lemma Forall2_nth_intro {A B} (P : A -> B -> Prop) d e l : forall m, length l = length m -> (forall i, (i < length l)%nat -> P (nth i l d) (nth i m e)) -> Forall2 P l m.
Proof.
  induction l as [|a l IH]; intros [|b m] L H; try discriminate L; constructor; [apply (H 0%nat); cbn; lia|]. apply IH; [cbn in L; lia|]. intros i Hi. apply (H (S i)). cbn. lia.
Qed.
Lemma Forall2_nth_elim {A B} (P : A -> B -> Prop) d e l m : Forall2 P l m -> forall i, (i < length l)%nat -> P (nth i l d) (nth i m e).
Proof. induction 1; intros [|i] Hi; cbn in *; try lia; [assumption|]. apply IHForall2. lia. Qed.

Lemma Forall2_len {A B} (P : A -> B -> Prop) l m : Forall2 P l m -> length l = length m.
Proof. induction 1; cbn; congruence. Qed.

(** ** Construction *)
(** Finite bounds are accepted exactly if they are in order on every side. *)
Theorem C78_box : forall rows, List.Forall row_fin rows ->
  (List.Forall ordered rows -> mk_fbox rows = Ok rows) /\ (~ List.Forall ordered rows -> mk_fbox rows = Err ValueError).
Proof.
  intros rows F. unfold mk_fbox. assert (E : forallb (fun b : frow => SFleb (fst b) (snd b)) rows = true <-> List.Forall ordered rows).
  { rewrite forallb_forall, Forall_forall. rewrite Forall_forall in F. split; intros H b Hb; specialize (H b Hb); destruct (F b Hb) as (A & B & C & D); unfold ordered in *;
      rewrite leb_val in * by assumption; destruct (Rle_bool_spec (val (fst b)) (val (snd b))); try reflexivity; try assumption; try discriminate; lra. }
  set (c := forallb _ rows) in E. change (((List.Forall ordered rows -> (if negb c then Err ValueError else Ok rows) = Ok rows) /\ (~ List.Forall ordered rows -> (if negb c then Err ValueError else Ok rows) = Err ValueError))).
  destruct c; split; intros H; try reflexivity; exfalso; [apply H; now apply E|]. apply E in H. discriminate.
Qed.
(** Unlike an interval, a box rejects NaN as a bound. *)
Theorem C78_nan : forall rows b, In b rows -> fst b = S754_nan \/ snd b = S754_nan -> mk_fbox rows = Err ValueError.
Proof.
  intros rows b Hb N. unfold mk_fbox. match goal with |- context [forallb ?f rows] => destruct (forallb f rows) eqn:E end; [|reflexivity]. rewrite forallb_forall in E. specialize (E b Hb). exfalso. destruct b as [l r]. cbn [fst snd] in *.
  destruct N as [-> | ->]; [destruct r as [[]|[]| |[] m e]|destruct l as [[]|[]| |[] m e]]; discriminate E.
Qed.
(** A side is a point if its bounds are equal as numbers (the two zeros are), and an interval otherwise. *)
Theorem C78_factor : forall b, row_fin b ->
  (val (fst b) = val (snd b) -> fbox_factor b = FPoint (fst b)) /\ (val (fst b) <> val (snd b) -> fbox_factor b = FSide (FInterval (fst b) (snd b))).
Proof.
  intros b (A & B & C & D). unfold fbox_factor. rewrite eqb_val by assumption. destruct (Req_EM_T _ _); split; intros; try reflexivity; contradiction.
Qed.
(** Membership is exact. *)
Theorem C78_contains : forall rows x, List.Forall row_fin rows -> List.Forall valid x ->
  (fbox_contains rows x = true <-> Forall2 (fun b v => fin v /\ val (fst b) <= val v <= val (snd b)) rows x).
Proof.
  intros rows x F V. unfold fbox_contains. destruct (Nat.eqb_spec (length x) (length rows)) as [L|L]; cbn [negb].
  2: { split; [discriminate|]. intros H. apply Forall2_len in H. congruence. }
  revert x V L. induction F as [|b rows Fb F IH]; intros [|v x] V L; try discriminate L; [split; [constructor|reflexivity]|]. inversion V; subst.
  cbn [combine forallb]. rewrite andb_true_iff, IH by (try assumption; cbn in L; lia). destruct b as [l r]. destruct Fb as (A & B & C & D). cbn [fst snd] in *.
  assert (K := C77_contains l r v A B H1 C D). unfold fcontains in K. cbn [fi_lower fi_upper] in K. rewrite K. split.
  - intros [H H']. constructor; assumption.
  - intros H. inversion H; subst. split; assumption.
Qed.

(** ** Volume *)
Lemma zero_val : val (S754_zero false) = 0.
Proof. reflexivity. Qed.
(** The side lengths as computed *)
Definition side_volume (b : frow) : spec_float := ffactor_volume (fbox_factor b).
Lemma side_ok b : row_fin b -> ordered b -> valid (side_volume b) /\ (fin (side_volume b) -> 0 <= val (side_volume b) /\
  (val (side_volume b) = 0 <-> width b = 0) /\ Rabs (val (side_volume b) - width b) <= u64 * width b).
Proof.
  intros F O. assert (F' := F). destruct F' as (A & B & C & D). unfold side_volume, width. destruct (C78_factor b F) as [E1 E2]. destruct (Req_EM_T (val (fst b)) (val (snd b))) as [E|E].
  - rewrite E1 by exact E. cbn [ffactor_volume]. split; [reflexivity|]. intros _. rewrite zero_val, E, Rminus_diag_eq, Rmult_0_r, Rminus_diag_eq, Rabs_R0 by reflexivity. repeat split; lra.
  - rewrite E2 by exact E. cbn [ffactor_volume]. split; [apply valid_sub; assumption|]. intros Fv. destruct (C77_volume (fst b) (snd b) A B O Fv) as (P & Z & R).
    split; [exact P|]. split; [|exact R]. rewrite Z. split; intros; lra.
Qed.
Definition wprod (ws : list R) : R := fold_right Rmult 1 ws.
(** No product on the way underflows. *)
Fixpoint no_underflow (acc : spec_float) (vs : list spec_float) : Prop :=
  match vs with [] => True | v :: vs' => / 2 ^ 1022 < val (SFmul 53 1024 acc v) /\ no_underflow (SFmul 53 1024 acc v) vs' end.
Lemma rnd_rel_normal c : 0 <= c -> / 2 ^ 1022 < rnd64 c -> Rabs (rnd64 c - c) <= u64 * c.
Proof.
  intros P H. destruct (Rle_dec (/ 2 ^ 1022) c) as [G|G].
  - assert (N := near_cst c). unfold normal, near in N. rewrite Rabs_pos_eq in N by exact P. specialize (N G). cbn in N. lra.
  - exfalso. assert (M := rnd_mono c (/ 2 ^ 1022) ltac:(lra)).
    assert (I : rnd64 (/ 2 ^ 1022) = / 2 ^ 1022).
    { change (/ 2 ^ 1022) with (/ (2 ^ 1022)). replace (/ 2 ^ 1022) with (bpow radix2 (- (1022))) by (rewrite bpow_opp; change 1022%Z with (Z.of_nat 1022); rewrite bpow_powerRZ, <- pow_powerRZ; reflexivity).
      unfold rnd64. apply round_generic; [apply valid_rnd_N|]. apply generic_format_bpow. unfold FLT_exp. cbn. lia. }
    lra.
Qed.
Lemma between_rel a w : 0 <= w -> Rabs (a - w) <= u64 * w -> (1 - u64) * w <= a <= (1 + u64) * w.
Proof. intros W H. apply Rabs_le_inv in H. lra. Qed.
Lemma wprod_nonneg ws : List.Forall (fun w => 0 <= w) ws -> 0 <= wprod ws.
Proof. induction 1; cbn; [lra|]. apply Rmult_le_pos; assumption. Qed.
Lemma wprod_zero ws : In 0 ws -> wprod ws = 0.
Proof. induction ws as [|w ws IH]; [intros []|]. intros [-> |H]; cbn; [ring|]. fold (wprod ws). rewrite IH by exact H. ring. Qed.
Lemma fold_fin vs : forall acc, fin (fold_left (SFmul 53 1024) vs acc) -> fin acc /\ List.Forall fin vs.
Proof.
  induction vs as [|v vs IH]; intros acc F; cbn in F; [auto|]. destruct (IH _ F) as [F1 F2]. apply mul_finite_args in F1 as [Fa Fv]. auto.
Qed.
Lemma fold_volume rows : List.Forall row_fin rows -> List.Forall ordered rows -> forall acc m W, valid acc -> 0 <= W ->
  fin (fold_left (SFmul 53 1024) (map side_volume rows) acc) -> 0 <= val acc ->
  let v := fold_left (SFmul 53 1024) (map side_volume rows) acc in
  0 <= val v /\ (val acc = 0 \/ In 0 (map width rows) -> val v = 0) /\
  ((1 - u64) ^ m * W <= val acc <= (1 + u64) ^ m * W -> no_underflow acc (map side_volume rows) ->
     (1 - u64) ^ (m + 2 * length rows) * (W * wprod (map width rows)) <= val v <= (1 + u64) ^ (m + 2 * length rows) * (W * wprod (map width rows))).
Proof.
  intros F O. assert (U := u_lt). destruct u_eta as (_ & _ & U1). induction F as [|b rows Fb F IH]; intros acc m W Va HW Fv Pa.
  - cbn [map fold_left length wprod fold_right no_underflow]. split; [exact Pa|]. split; [intros [H|[]]; exact H|]. intros H _. rewrite Nat.mul_0_r, Nat.add_0_r, Rmult_1_r. exact H.
  - inversion O as [|? ? Ob O']; subst. cbn [map fold_left] in Fv |- *. destruct (fold_fin _ _ Fv) as [F1 _]. destruct (side_ok b Fb Ob) as [Vs Hs].
    assert (Ff := mul_finite_args _ _ F1). destruct Ff as [Fa Fs]. destruct (Hs Fs) as (Ps & Zs & Bs). assert (Wb : 0 <= width b) by (unfold width, ordered in *; lra).
    assert (E := proj2 (mul_ok _ _ Va Vs) F1). assert (P1 : 0 <= val (SFmul 53 1024 acc (side_volume b))) by (rewrite E; apply rnd_nonneg, Rmult_le_pos; assumption).
    assert (Vm := valid_mul _ _ Va Vs).
    specialize (IH O' (SFmul 53 1024 acc (side_volume b)) (m + 2)%nat (W * width b) Vm (Rmult_le_pos _ _ HW Wb) Fv P1). cbn zeta in IH. destruct IH as (I1 & I2 & I3). cbn zeta. split; [exact I1|]. split.
    + intros H. apply I2. destruct H as [H|[H|H]]; [left|left|right; exact H]; rewrite E; [rewrite H, Rmult_0_l|rewrite (proj2 Zs H), Rmult_0_r]; unfold rnd64; apply round_0; apply valid_rnd_N.
    + intros H [N1 N2]. specialize (I3) . cbn [length wprod fold_right map]. fold (wprod (map width rows)).
      replace (m + 2 * S (length rows))%nat with (m + 2 + 2 * length rows)%nat by lia. rewrite <- (Rmult_assoc W). apply I3; [|exact N2].
      set (s := val (side_volume b)) in *. rewrite E in N1 |- *. assert (Pp : 0 <= val acc * s) by (apply Rmult_le_pos; assumption).
      assert (B := between_rel _ _ Pp (rnd_rel_normal _ Pp N1)). assert (Bs' := between_rel _ _ Wb Bs).
      assert (L0 : 0 <= (1 - u64) ^ m) by (apply pow_le; lra). assert (G0 : 0 <= (1 + u64) ^ m) by (apply pow_le; lra).
      assert (Lo : (1 - u64) ^ m * W * ((1 - u64) * width b) <= val acc * s) by (apply Rmult_le_compat; [apply Rmult_le_pos; lra|apply Rmult_le_pos; lra|lra|lra]).
      assert (Hi : val acc * s <= (1 + u64) ^ m * W * ((1 + u64) * width b)) by (apply Rmult_le_compat; lra).
      replace ((1 - u64) ^ (m + 2)) with ((1 - u64) ^ m * (1 - u64) * (1 - u64)) by (rewrite pow_add; ring). replace ((1 + u64) ^ (m + 2)) with ((1 + u64) ^ m * (1 + u64) * (1 + u64)) by (rewrite pow_add; ring).
      apply (Rmult_le_compat_l (1 - u64)) in Lo; [|lra]. apply (Rmult_le_compat_l (1 + u64)) in Hi; [|lra]. split; lra.
Qed.
(** A volume that is finite is not negative, 0 if a side is collapsed, and, if no product on the way underflows, has
    a relative error of at most one rounding for every subtraction and multiplication. *)
Theorem C78_volume : forall rows v, List.Forall row_fin rows -> List.Forall ordered rows -> fbox_volume rows = Ok v -> fin v ->
  0 <= val v /\ (In 0 (map width rows) -> val v = 0) /\
  (no_underflow (side_volume (hd dnan rows)) (map side_volume (tl rows)) ->
     (1 - / 2 ^ 53) ^ (2 * length rows - 1) * wprod (map width rows) <= val v <= (1 + / 2 ^ 53) ^ (2 * length rows - 1) * wprod (map width rows)).
Proof.
  intros [|b rows] v F O H Fv; [discriminate H|]. unfold fbox_volume in H. cbn [map] in H. fold (side_volume b) in H. change (map (fun b0 => ffactor_volume (fbox_factor b0)) rows) with (map side_volume rows) in H.
  apply ok_inj in H. assert (Fb := Forall_inv F). assert (F' := Forall_inv_tail F). assert (Ob := Forall_inv O). assert (O' := Forall_inv_tail O). rewrite <- H in Fv |- *. clear v H. change (/ 2 ^ 53) with u64.
  destruct (fold_fin _ _ Fv) as [Fs _]. destruct (side_ok b Fb Ob) as [Vs Hs]. destruct (Hs Fs) as (Ps & Zs & Bs). assert (Wb : 0 <= width b) by (unfold width, ordered in *; lra).
  destruct (fold_volume rows F' O' (side_volume b) 1 (width b) Vs Wb Fv Ps) as (I1 & I2 & I3). split; [exact I1|]. split.
  - intros [H|H]; apply I2; [left; apply Zs; exact H|right; exact H].
  - cbn [hd tl map length wprod fold_right]. intros N. replace (2 * S (length rows) - 1)%nat with (1 + 2 * length rows)%nat by lia. apply I3; [|exact N]. rewrite !pow_1. now apply between_rel.
Qed.
(** Without sides there is no volume. *)
Theorem C78_no_sides : mk_fbox [] = Ok [] /\ fbox_volume [] = Err TypeError.
Proof. split; reflexivity. Qed.
(** Violated: a box of positive volume has computed volume 0 (by underflow); a collapsed box, of volume 0, has computed
    volume NaN if the width of another side overflows. *)
Theorem C78_volume_refuted :
  (let s := (S754_zero false, S754_finite false 4503599627370496 (-652)) in
   mk_fbox [s; s] = Ok [s; s] /\ 0 < wprod (map width [s; s]) /\ fbox_volume [s; s] = Ok (S754_zero false)) /\
  (let rows := [(SFopp fmax, fmax); (S754_zero false, S754_zero false)] in
   mk_fbox rows = Ok rows /\ wprod (map width rows) = 0 /\ fbox_volume rows = Ok S754_nan).
Proof.
  split; intros s; (split; [vm_compute; reflexivity|]); (split; [|vm_compute; reflexivity]).
  - unfold s, wprod, width, val. cbn [map fold_right fst snd SF2R]. assert (X := F2R_gt_0 radix2 {| Fnum := 4503599627370496; Fexp := -652 |} ltac:(cbn; lia)).
    change (cond_Zopp false (Z.pos 4503599627370496)) with 4503599627370496%Z. rewrite Rminus_0_r, Rmult_1_r. now apply Rmult_lt_0_compat.
  - unfold s. apply wprod_zero. right. left. unfold width. cbn [fst snd]. rewrite zero_val. ring.
Qed.

(** ** Uniform grids *)
Theorem C78_shape : forall rows shp inset, List.Forall row_fin rows -> length shp <> length (sides rows) -> fbox_grid rows shp inset = Err TypeError.
Proof.
  intros rows shp inset F H. unfold fbox_grid. assert (E : fn_interior rows = length (sides rows)).
  { unfold fn_interior, sides. f_equal. apply filter_ext_in. intros b Hb. rewrite Forall_forall in F. destruct (F b Hb) as (A & B & C & D). rewrite eqb_val by assumption. now destruct (Req_EM_T _ _). }
  rewrite E. apply Nat.eqb_neq in H. rewrite H. reflexivity.
Qed.
(** With one number of points for each side that is not collapsed: one factor for each side, the bound of a collapsed
    side, and the grid of the interval of any other side with its own number of points. *)
Theorem C78_grid : forall rows shp inset, List.Forall row_fin rows -> length shp = length (sides rows) ->
  exists g, fbox_grid rows shp inset = Ok g /\ length g = length rows /\
  forall i, (i < length rows)%nat -> let b := nth i rows dnan in
    (val (fst b) = val (snd b) -> nth i g [] = [fst b]) /\
    (val (fst b) <> val (snd b) -> fgrid (FInterval (fst b) (snd b)) [nth (length (sides (firstn i rows))) shp 0%nat] inset = Ok (nth i g [])).
Proof.
  intros rows shp inset F L. unfold fbox_grid. assert (E : fn_interior rows = length (sides rows)).
  { unfold fn_interior, sides. f_equal. apply filter_ext_in. intros b Hb. rewrite Forall_forall in F. destruct (F b Hb) as (A & B & C & D). rewrite eqb_val by assumption. now destruct (Req_EM_T _ _). }
  rewrite E, L, Nat.eqb_refl. cbn [negb]. clear E. revert shp L. induction F as [|b rows Fb F IH]; intros shp L.
  - exists []. repeat split; cbn in *; lia.
  - assert (Fb' := Fb). destruct Fb' as (A & B & C & D). destruct (C78_factor b Fb) as [E1 E2]. assert (Q := eqb_val (fst b) (snd b) A B C D).
    assert (HS : sides (b :: rows) = if Req_EM_T (val (fst b)) (val (snd b)) then sides rows else b :: sides rows) by (unfold sides; cbn [filter]; destruct (Req_EM_T (val (fst b)) (val (snd b))); reflexivity).
    cbn [map fscatter]. rewrite Q, HS in *. destruct (Req_EM_T (val (fst b)) (val (snd b))) as [G|G].
    + destruct (IH shp L) as (g & Hg & Lg & Hi). exists ([fst b] :: g). rewrite (E1 G). cbn [combine mapM fget_grid Nat.eqb bind]. rewrite Hg. cbn [bind]. split; [reflexivity|]. split; [cbn; lia|].
      intros [|i] H; cbn [nth].
      * split; [reflexivity|]. intros; contradiction.
      * cbn [firstn]. replace (sides (b :: firstn i rows)) with (sides (firstn i rows)). 2: { unfold sides at 2. cbn [filter]. destruct (Req_EM_T (val (fst b)) (val (snd b))); [reflexivity|contradiction]. }
        apply Hi. cbn in H. lia.
    + cbn [length repeat] in *. destruct shp as [|n shp]; [discriminate L|]. destruct (IH shp ltac:(cbn in L; lia)) as (g & Hg & Lg & Hi).
      exists (flinspace (SFadd 53 1024 (fst b) inset) (SFsub 53 1024 (snd b) inset) n :: g). rewrite (E2 G). cbn [combine mapM fget_grid fgrid bind fi_lower fi_upper]. rewrite Hg. cbn [bind]. split; [reflexivity|]. split; [cbn; lia|].
      intros [|i] H; cbn [nth].
      * split; [intros; contradiction|]. intros _. reflexivity.
      * cbn [firstn]. replace (sides (b :: firstn i rows)) with (b :: sides (firstn i rows)). 2: { unfold sides at 2. cbn [filter]. destruct (Req_EM_T (val (fst b)) (val (snd b))); [contradiction|reflexivity]. }
        cbn [length nth]. apply Hi. cbn in H. lia.
Qed.
(** The hypotheses of [C77_grid] for a side and its number of points *)
Definition side_grid_ok (b : frow) (n : nat) (inset : spec_float) : Prop :=
  let a := SFadd 53 1024 (fst b) inset in let c := SFsub 53 1024 (snd b) inset in
  2 * val inset <= width b /\ fin (fvolume (FInterval (fst b) (snd b))) /\ INR n <= 2 ^ 50 /\
  ((2 <= n)%nat -> val (SFdiv 53 1024 (SFsub 53 1024 c a) (of_nat (n - 1))) = 0 \/ INR n * / 2 ^ 1022 <= val c - val a).
(** Then the number of points of the factors is as asked for, and every point of the grid is in the box. *)
Theorem C78_inside : forall rows shp inset g, List.Forall row_fin rows -> List.Forall ordered rows -> valid inset -> fin inset -> 0 <= val inset ->
  length shp = length (sides rows) ->
  (forall i, (i < length rows)%nat -> val (fst (nth i rows dnan)) <> val (snd (nth i rows dnan)) -> side_grid_ok (nth i rows dnan) (nth (length (sides (firstn i rows))) shp 0%nat) inset) ->
  fbox_grid rows shp inset = Ok g ->
  (forall i, (i < length rows)%nat -> val (fst (nth i rows dnan)) <> val (snd (nth i rows dnan)) -> length (nth i g []) = nth (length (sides (firstn i rows))) shp 0%nat) /\
  forall x, List.Forall valid x -> Forall2 (fun v f => In v f) x g -> fbox_contains rows x = true.
Proof.
  intros rows shp inset g F O Vi Fi Pi L H Hg. destruct (C78_grid rows shp inset F L) as (g' & Hg' & Lg & Hi). rewrite Hg in Hg'. apply ok_inj in Hg'. subst g'.
  assert (K : forall i, (i < length rows)%nat -> val (fst (nth i rows dnan)) <> val (snd (nth i rows dnan)) ->
     length (nth i g []) = nth (length (sides (firstn i rows))) shp 0%nat /\ forall x, In x (nth i g []) -> fcontains (FInterval (fst (nth i rows dnan)) (snd (nth i rows dnan))) x = true).
  { intros i I N. destruct (H i I N) as (H1 & H2 & H3 & H4). assert (M := nth_In rows dnan I). rewrite Forall_forall in F, O. destruct (F _ M) as (A & B & C & D). specialize (O _ M). unfold ordered in O. unfold width in H1.
    destruct (C77_grid (fst (nth i rows dnan)) (snd (nth i rows dnan)) inset _ (nth i g []) A B Vi C D Fi O Pi H1 H2 H3 H4 (proj2 (Hi i I) N)) as (G1 & G2 & _). split; assumption. }
  split; [intros i I N; apply K; assumption|]. intros x Vx Hx. assert (Lx := Forall2_len _ _ _ Hx). apply C78_contains; try assumption. apply (Forall2_nth_intro _ dnan S754_nan); [lia|]. intros i I.
  assert (Q := Forall2_nth_elim _ S754_nan [] _ _ Hx i ltac:(lia)). cbn beta in Q. assert (M := nth_In rows dnan I). assert (F' := F). rewrite Forall_forall in F'. destruct (F' _ M) as (A & B & C & D).
  assert (Vxi : valid (nth i x S754_nan)) by (rewrite Forall_forall in Vx; apply Vx, nth_In; lia).
  destruct (Req_EM_T (val (fst (nth i rows dnan))) (val (snd (nth i rows dnan)))) as [G|G].
  - rewrite (proj1 (Hi i I) G) in Q. destruct Q as [<-|[]]. split; [exact C|]. lra.
  - apply (C77_contains (fst (nth i rows dnan)) (snd (nth i rows dnan))); auto. now apply K.
Qed.

(** A box with two sides and a collapsed one between them *)
Example C78_ex : let o := S754_zero false in let e := SFone 53 1024 in let rows := [(o, e); (e, e); (o, SFadd 53 1024 e e)] in
  mk_fbox rows = Ok rows /\ fn_interior rows = 2%nat /\ fbox_contains rows [e; e; e] = true /\ fbox_contains rows [e; o; e] = false /\ fbox_contains rows [e; e] = false /\
  fbox_volume [(o, e); (o, SFadd 53 1024 e e)] = Ok (SFadd 53 1024 e e) /\
  fbox_grid rows [2%nat; 3%nat] o = Ok [[o; e]; [e]; [o; e; SFadd 53 1024 e e]].
Proof. repeat split; vm_compute; reflexivity. Qed.
Print Assumptions C78_inside.
Print Assumptions C78_volume.
